(** C46, last part: two's complement, sign conversion, signed by unsigned multiplication, and signed division. *)
Require Import Coq.NArith.NArith Coq.ZArith.ZArith Coq.Arith.Arith Coq.Lists.List Coq.Bool.Bool Lia.
From Verif Require Import Base.Fld Base.Lists Base.Sums M3.TableModel M3.TableProofs M3.GadgetModel M3.BitLemmas M3.AddProps M3.WideProps M3.MulProps M3.SignedModel.
Import ListNotations.
Local Open Scope nat_scope.

Section Signed.
  Variable F : field.
  Hypothesis C2 : char2 F.
  Variable basis : nat -> F.
  Add Ring Fring : (f_ring F).
  Notation wit := (wit F).
  Notation b2n := (b2n F).
  Notation bnum := (bnum F).
  Notation isbit := (isbit F).
  Notation tb := (tb F).
  Notation num := (num F).
  Notation bitcols := (bitcols F).
  Notation hold := (hold F).
  Notation holdn := (holdn F).
  Notation below := (below F).
  Notation len t := (length (t_cols F t)).

  (** Whatever every satisfying witness has, the witness that can be built has. *)
  Lemma can_ens {A} n P (m : builder F A) Q R : can F basis n P m Q -> ens F basis n m R -> can F basis n P m (fun w a => Q w a /\ R w a).
  Proof.
    intros HC HE t a t' E. destruct (HC t a t' E) as [L H]. split; [exact L|]. intros w HW. destruct (H w HW) as (w' & AG & HH). exists w'. split; [exact AG|].
    intros w1 A1. destruct (HH w1 A1) as [S1 Q1]. split; [exact S1|]. split; [exact Q1|]. exact (proj2 (HE t a t' E w1 S1)).
  Qed.
  Lemma num_holdn n m w l X : bitcols n m w l -> (forall i, i < n -> num m w l i = X i) -> holdn n m w l X.
  Proof. intros B E j Hj i Hi. apply (bits_of_num F (fun j => w (nthc l j) i) m (X i)); [intros k Hk; apply B; auto|apply E; auto|exact Hj]. Qed.
  Lemma holdn_bits n m w l X : holdn n m w l X -> bitcols n m w l.
  Proof. intros H j Hj i Hi. rewrite (H j Hj i Hi). apply tb_isbit. Qed.

  Lemma complement f k : (forall j, j < k -> isbit (f j)) -> bnum (fun j => (f j + f1)%F) k + bnum f k + 1 = 2 ^ k.
  Proof.
    intros B. induction k as [|k IH]; [reflexivity|]. cbn [AddProps.bnum]. specialize (IH ltac:(intros; apply B; lia)). rewrite Nat.pow_succ_r'.
    destruct (B k ltac:(lia)) as [-> | ->].
    - replace (f0 + f1)%F with (f1 : F) by ring. rewrite b2n_0, b2n_1. lia.
    - rewrite C2, b2n_0, b2n_1. lia.
  Qed.

  (** *** Two's complement *)
  Lemma twos_ens n m x : 0 < m -> ens F basis n (twos_new F m x) (fun w r => bitcols n m w x ->
      bitcols n m w (tc_result r) /\ forall i, i < n -> num m w (tc_result r) i = (2 ^ m - num m w x i) mod 2 ^ m).
  Proof.
    intros Hm. unfold twos_new. eapply ens_conseq; [eapply ens_bind; [apply (ens_from_fn F basis n 0 _ (fun j w c => forall i, i < n * 1 -> w c i = (w (nthc x j) i + f1)%F))|intros iv]|].
    - intros j Hj. apply (ens_computed F C2 basis n 1 true).
    - eapply ens_bind with (Q := fun w g => bitcols n m w iv -> bitcols n m w (i_zout g) /\ forall i, i < n -> num m w iv i + 1 = num m w (i_zout g) i + 2 ^ m * b2n (w (i_final_carry g) i)).
      + intros t g t' E w SW. split; [apply (incr_ens F C2 basis n m iv t g t' E w SW)|]. intros BI. exact (incr_sound F C2 basis m iv t g t' Hm E n w SW BI).
      + intros g. match goal with |- ens _ _ _ (bret F ?v) _ => apply (ens_ret F basis n v (fun _ b => b = v)); reflexivity end.
    - intros w r (iv & [LI HI] & g & HG & ->) BX. cbn [tc_result].
      assert (EI : forall j, j < m -> forall i, i < n -> w (nthc iv j) i = (w (nthc x j) i + f1)%F) by (intros j Hj i Hi; apply (HI j Hj i); lia).
      assert (BI : bitcols n m w iv) by (intros j Hj i Hi; rewrite EI by auto; apply (bit_add F C2); [apply BX; auto|now right]).
      destruct (HG BI) as [BZ HZ]. split; [exact BZ|]. intros i Hi. specialize (HZ i Hi).
      pose proof (complement (fun j => w (nthc x j) i) m (fun j Hj => BX j Hj i Hi)) as CP. assert (E1 : num m w iv i = bnum (fun j => (w (nthc x j) i + f1)%F) m) by (apply bnum_ext; intros j Hj; now apply EI).
      rewrite E1 in HZ. fold (num m w x i) in CP. assert (BN : num m w (i_zout g) i < 2 ^ m) by apply bnum_bound. pose proof (b2n_le F (w (i_final_carry g) i)) as BC.
      replace (2 ^ m - num m w x i) with (num m w (i_zout g) i + b2n (w (i_final_carry g) i) * 2 ^ m) by nia. rewrite Nat.mod_add by lia. symmetry. now apply Nat.mod_small.
  Qed.
  Theorem twos_complement_sound m x t r t' : 0 < m -> twos_new F m x t = (r, t') -> forall n w, satisfies F basis n w t' -> bitcols n m w x ->
    bitcols n m w (tc_result r) /\ forall i, i < n -> num m w (tc_result r) i = (2 ^ m - num m w x i) mod 2 ^ m.
  Proof. intros Hm E n w SW. exact (proj2 (twos_ens n m x Hm t r t' E w SW)). Qed.

  Lemma twos_can n m x (X : nat -> nat) : 0 < m -> (forall i, X i < 2 ^ m) ->
    can F basis n (fun w => holdn n m w x X) (twos_new F m x) (fun w r => holdn n m w (tc_result r) (fun i => (2 ^ m - X i) mod 2 ^ m)).
  Proof.
    intros Hm HX. eapply can_post; [eapply (can_ens n _ _ (fun _ _ => True)); [|apply (twos_ens n m x Hm)]|].
    - unfold twos_new. eapply can_bind; [apply (@can_from_fn F basis n col 0 _ (fun j w c => forall i, w c i = (tb (X i) j + f1)%F)); intros j Hj|intros iv].
      + apply (can_computed F C2); [intros _ i; apply (bit_add F C2); [apply tb_isbit|now right]|]. intros w HW i Hi. cbn [eeval SignedModel.ECol']. rewrite (HW j ltac:(lia) i) by lia. reflexivity.
      + eapply can_bind; [|intros g; apply can_ret; intros; exact I]. eapply can_conseq; [apply (incr_can F C2 basis n m iv (fun j i => (tb (X i) j + f1)%F) Hm)| |intros w a _ H; exact H].
        * intros j i. apply (bit_add F C2); [apply tb_isbit|now right].
        * intros w [_ [L H]] j Hj i Hi. exact (H j Hj i).
    - cbv beta. intros w r HW [_ H]. destruct (H (holdn_bits n m w x X HW)) as [B E]. apply num_holdn; [exact B|]. intros i Hi. rewrite E by auto.
      rewrite (holdn_num F n m w x X i HW Hi). now rewrite (Nat.mod_small (X i)).
  Qed.
  Theorem twos_complement_complete m x t r t' : 0 < m -> twos_new F m x t = (r, t') ->
    forall n w X, (forall w', agree F (len t) w w' -> satisfies F basis n w' t) -> below t m x -> holdn n m w x X -> (forall i, X i < 2 ^ m) ->
    exists w', agree F (len t) w w' /\ satisfies F basis n w' t' /\ holdn n m w' (tc_result r) (fun i => (2 ^ m - X i) mod 2 ^ m).
  Proof.
    intros Hm E n w X HS BX HX HB. refine (can_run F basis n _ _ _ t r t' w (twos_can n m x X Hm HB) E _).
    intros w1 A1. split; [now apply HS|]. intros j Hj i Hi. rewrite <- A1 by (apply BX; auto). now apply HX.
  Qed.

  (** *** Sign conversion *)
  Definition signed_by (m : nat) (c : bool) (a : nat) : nat := if c then (2 ^ m - a) mod 2 ^ m else a.
  Definition on (c : F) : bool := negb (feqb c f0).
  Lemma mux (c u v : F) : isbit c -> (u * c + (c + f1) * v)%F = if on c then u else v.
  Proof.
    unfold on. intros [-> | ->].
    - rewrite feqb_refl. cbn [negb]. ring.
    - destruct (feqb_spec F f1 f0) as [E|]; [now destruct (f_10 F)|]. cbn [negb]. rewrite C2. ring.
  Qed.
  Lemma sign_ens n m x cond : 0 < m -> ens F basis n (sign_converter_new F m x cond) (fun w r => bitcols n m w x -> (forall i, i < n -> isbit (eeval F w i cond)) ->
      bitcols n m w (sc_bits r) /\ forall i, i < n -> num m w (sc_bits r) i = signed_by m (on (eeval F w i cond)) (num m w x i)).
  Proof.
    intros Hm. unfold sign_converter_new. eapply ens_conseq; [eapply ens_bind; [apply (twos_ens n m x Hm)|intros tc]|].
    - eapply ens_bind; [apply (ens_from_fn F basis n 0 _ (fun j w c => forall i, i < n * 1 -> w c i = (w (nthc (tc_result tc) j) i * eeval F w i cond + (eeval F w i cond + f1) * w (nthc x j) i)%F)); intros j Hj; apply (ens_computed F C2 basis n 1 true)|intros cv].
      match goal with |- ens _ _ _ (bret F ?v) _ => apply (ens_ret F basis n v (fun _ b => b = v)); reflexivity end.
    - intros w r (tc & HT & cv & [LC HC] & ->) BX BC. cbn [sc_bits]. destruct (HT BX) as [BT ET].
      assert (EC : forall j, j < m -> forall i, i < n -> w (nthc cv j) i = if on (eeval F w i cond) then w (nthc (tc_result tc) j) i else w (nthc x j) i).
      { intros j Hj i Hi. transitivity (w (nthc (tc_result tc) j) i * eeval F w i cond + (eeval F w i cond + f1) * w (nthc x j) i)%F; [apply (HC j Hj i); lia|]. now rewrite mux by auto. }
      split; [intros j Hj i Hi; rewrite EC by auto; destruct (on _); [apply BT|apply BX]; auto|]. intros i Hi. unfold signed_by.
      assert (EN : num m w cv i = if on (eeval F w i cond) then num m w (tc_result tc) i else num m w x i).
      { unfold WideProps.num. rewrite (bnum_ext F _ _ m (fun j Hj => EC j Hj i Hi)). destruct (on _); reflexivity. }
      rewrite EN. destruct (on _); [now apply ET|reflexivity].
  Qed.
  (** SignConverter: the output is the input, or its two's complement when the condition is one. *)
  Theorem sign_converter_sound m x cond t r t' : 0 < m -> sign_converter_new F m x cond t = (r, t') -> forall n w, satisfies F basis n w t' ->
    bitcols n m w x -> (forall i, i < n -> isbit (eeval F w i cond)) -> bitcols n m w (sc_bits r) /\
    forall i, i < n -> num m w (sc_bits r) i = if feqb (eeval F w i cond) f0 then num m w x i else (2 ^ m - num m w x i) mod 2 ^ m.
  Proof.
    intros Hm E n w SW BX BC. destruct (proj2 (sign_ens n m x cond Hm t r t' E w SW) BX BC) as [B H]. split; [exact B|]. intros i Hi. rewrite (H i Hi). unfold signed_by, on. destruct (feqb _ _); reflexivity.
  Qed.
  Lemma sign_can n m x cond (X : nat -> nat) (c : nat -> bool) : 0 < m -> (forall i, X i < 2 ^ m) ->
    can F basis n (fun w => holdn n m w x X /\ forall i, i < n -> eeval F w i cond = if c i then f1 else f0) (sign_converter_new F m x cond)
      (fun w r => holdn n m w (sc_bits r) (fun i => signed_by m (c i) (X i))).
  Proof.
    intros Hm HX. assert (BF : forall i, isbit (if c i then f1 else f0)) by (intros i; destruct (c i); [now right|now left]).
    eapply can_post; [eapply (can_ens n _ _ (fun _ _ => True)); [|apply (sign_ens n m x cond Hm)]|].
    - unfold sign_converter_new. eapply can_bind with (Q := fun w r => holdn n m w (tc_result r) (fun i => (2 ^ m - X i) mod 2 ^ m)).
      { eapply can_conseq; [apply (twos_can n m x X Hm HX)| |intros w a _ H; exact H]. intros w [H _]. exact H. }
      intros tc. eapply can_bind; [|intros cv; apply can_ret; intros; exact I].
      apply (@can_from_fn F basis n col 0 _ (fun _ _ _ => True)). intros j Hj. eapply can_post; [apply (can_computed F C2 basis n _ 1 true _ (fun i => (tb ((2 ^ m - X i) mod 2 ^ m) j * (if c i then f1 else f0) + ((if c i then f1 else f0) + f1) * tb (X i) j)%F))|intros; exact I].
      + intros _ i. apply (bit_add F C2); apply (bit_mul F); auto using tb_isbit. apply (bit_add F C2); [auto|now right].
      + intros w [[HW EC] HT] i Hi. cbn [eeval SignedModel.ECol']. rewrite EC, (HT j), (HW j) by lia. reflexivity.
    - cbv beta. intros w r [HW EC] [_ H]. destruct (H (holdn_bits n m w x X HW)) as [B E]; [intros i Hi; rewrite EC by auto; apply BF|]. apply num_holdn; [exact B|]. intros i Hi. rewrite E, EC by auto.
      rewrite (holdn_num F n m w x X i HW Hi), (Nat.mod_small (X i)) by auto. unfold on. destruct (c i); [|now rewrite feqb_refl]. destruct (feqb_spec F f1 f0) as [E1|]; [now destruct (f_10 F)|reflexivity].
  Qed.
  Theorem sign_converter_complete m x cond t r t' : 0 < m -> sign_converter_new F m x cond t = (r, t') ->
    forall n w X c, (forall w', agree F (len t) w w' -> satisfies F basis n w' t) -> below t m x -> holdn n m w x X -> (forall i, X i < 2 ^ m) ->
    (forall w', agree F (len t) w w' -> forall i, i < n -> eeval F w' i cond = if c i : bool then f1 else f0) ->
    exists w', agree F (len t) w w' /\ satisfies F basis n w' t' /\ holdn n m w' (sc_bits r) (fun i => if c i then (2 ^ m - X i) mod 2 ^ m else X i).
  Proof.
    intros Hm E n w X c HS BX HX HB HC. refine (can_run F basis n _ _ _ t r t' w (sign_can n m x cond X c Hm HB) E _).
    intros w1 A1. split; [now apply HS|]. split; [|now apply HC]. intros j Hj i Hi. rewrite <- A1 by (apply BX; auto). now apply HX.
  Qed.

  (** *** Signed by unsigned multiplication *)
  Notation hi m a b := (a * b / 2 ^ m).
  Lemma mul_su_can n m lb g (X Y : nat -> nat) (Z1 : nat -> nat -> F) : 0 < m -> (forall i, X i < 2 ^ m /\ Y i < 2 ^ m) ->
    (forall j i, isbit (Z1 j i)) -> (forall i, Z1 0 i = (tb (hi m (X i) (Y i)) 0 + tb (Y i) 0)%F) ->
    can F basis n (fun _ => True) (mul_su_new F basis lb m g)
      (fun w r => holdn n m w (mu_x_bits r) X /\ holdn n m w (mu_y_bits r) Y /\ holdn n m w (mu_low_bits r) (fun i => (X i * Y i) mod 2 ^ m) /\
         hold n m w (mu_high_bits r) (fun j i => if neg m (X i) then Z1 j i else tb (hi m (X i) (Y i)) j)).
  Proof.
    intros Hm HB BZ1 Z10. unfold mul_su_new.
    eapply can_bind; [apply (can_committed_multiple F basis n _ m 1 (fun j i => tb (X i) j)); intros; apply tb_bit|intros x].
    eapply can_bind; [apply (can_committed_multiple F basis n _ m 1 (fun j i => tb (Y i) j)); intros; apply tb_bit|intros y].
    eapply can_bind; [apply (can_computed F C2 basis n _ 1 false _ (fun i => packed F basis m (tb (X i)))); [discriminate|]|intros xin].
    { intros w [[_ [L1 H1]] _] i Hi. apply (holdn_packed F basis n); auto; [|lia]. intros j Hj k Hk. now apply H1. }
    eapply can_bind; [apply (can_computed F C2 basis n _ 1 false _ (fun i => packed F basis m (tb (Y i)))); [discriminate|]|intros yin].
    { intros w HW i Hi. ands. apply (holdn_packed F basis n); auto; [|lia]. intros j Hj k Hk. unfold nthc. auto. }
    eapply can_bind with (Q := fun w r => m_x_bits r = x /\ m_y_bits r = y /\ (length (m_low_bits r) = m /\ length (m_high_bits r) = m) /\ holdn n m w (m_low_bits r) (fun i => (X i * Y i) mod 2 ^ m) /\ holdn n m w (m_high_bits r) (fun i => hi m (X i) (Y i))).
    { eapply can_conseq; [apply (mul_can F C2 basis n m g x y X Y Hm (fun i _ => HB i))| |intros w a _ H; exact H]. intros w HW. ands. split; [assumption|]. split; [assumption|]. split; intros j Hj i Hi; unfold nthc; auto. }
    intros mi. eapply can_bind with (Q := fun w s => hold n m w (ws_zout s) Z1).
    { set (bo := fun j i => (tb (hi m (X i) (Y i)) (S j) + tb (Y i) (S j) + Z1 (S j) i)%F).
      eapply can_conseq; [apply (wide_sub_can F C2 basis n lb m (m_high_bits mi) y commit_z (fun j i => tb (hi m (X i) (Y i)) j) (fun j i => tb (Y i) j) (fun _ => f0) bo)| |].
      - exact Hm.
      - intros; apply tb_isbit.
      - intros; apply tb_isbit.
      - intros; now left.
      - intros; unfold bo; repeat apply (bit_add F C2); auto using tb_isbit.
      - intros w HW. ands. split; [assumption|]. split; [intros j Hj i Hi; unfold nthc; auto|intros i; reflexivity].
      - intros w a _ (_ & H & _) j Hj i Hi. rewrite (H j Hj i Hi). destruct (Nat.eqb_spec j 0) as [->|N]; [rewrite Z10 by auto; ring|].
        unfold bo. replace (S (j - 1)) with j by lia. transitivity ((tb (hi m (X i) (Y i)) j + tb (hi m (X i) (Y i)) j) + (tb (Y i) j + tb (Y i) j) + Z1 j i)%F; [ring|]. rewrite !(char2_double F C2). ring. }
    intros ys. eapply can_bind; [apply (@can_from_fn F basis n col 0 _ (fun j w c => forall i, w c i = if neg m (X i) then Z1 j i else tb (hi m (X i) (Y i)) j)); intros j Hj|intros oh].
    { apply (can_computed F C2); [intros _ i; destruct (neg m (X i)); [apply BZ1|apply tb_isbit]|]. intros w HW i Hi. ands. cbn [eeval SignedModel.ECol'].
      match goal with H : holdn n m w (m_high_bits mi) _, H' : hold n m w (ws_zout ys) Z1 |- _ => rewrite H, H' by lia end.
      assert (EX : w (nthc x (m - 1)) i = tb (X i) (m - 1)) by (unfold nthc; match goal with H : forall j, j < m -> forall i, w (nth j x 0) i = _ |- _ => apply H end; lia). rewrite EX.
      unfold AddProps.tb at 2. fold (bF F (Nat.testbit (X i) (m - 1))). rewrite (sel_F F C2). reflexivity. }
    eapply can_bind; [apply (can_computed F C2 basis n _ 1 false _ (fun i => packed F basis m (fun j => if neg m (X i) then Z1 j i else tb (hi m (X i) (Y i)) j))); [discriminate|]|intros ph].
    { intros w [HW [LO' HN]] i Hi. assert (LO : @length col oh = m) by exact LO'. rewrite (pack_eval F basis), LO. unfold packed. apply sumn_ext. intros j Hj. f_equal. exact (HN j Hj i). }
    eapply can_bind; [apply (can_computed F C2 basis n _ 1 false _ (fun i => packed F basis m (tb ((X i * Y i) mod 2 ^ m)))); [discriminate|]|intros pl].
    { intros w HW i Hi. ands. assert (LO : length (m_low_bits mi) = m) by assumption. rewrite (pack_eval F basis), LO. unfold packed. apply sumn_ext. intros j Hj. f_equal. match goal with H : holdn n m w (m_low_bits mi) _ |- _ => apply H; lia end. }
    apply can_ret. intros w [[[HW [LO HN]] _] _]. ands. cbn [mu_x_bits mu_y_bits mu_low_bits mu_high_bits]. split; [intros j Hj i Hi; unfold nthc; auto|]. split; [intros j Hj i Hi; unfold nthc; auto|]. split; [assumption|]. intros j Hj i Hi. exact (HN j Hj i).
  Qed.

  (** MulSU32: for all inputs there are satisfying values whose output is the signed-by-unsigned product modulo 2^(2m). *)
  Theorem mul_su_complete lb m g t r t' : 0 < m -> mul_su_new F basis lb m g t = (r, t') ->
    forall n w X Y, (forall w', agree F (len t) w w' -> satisfies F basis n w' t) -> (forall i, X i < 2 ^ m /\ Y i < 2 ^ m) ->
    exists w' H, agree F (len t) w w' /\ satisfies F basis n w' t' /\ holdn n m w' (mu_x_bits r) X /\ holdn n m w' (mu_y_bits r) Y /\
      holdn n m w' (mu_low_bits r) (fun i => (X i * Y i) mod 2 ^ m) /\ holdn n m w' (mu_high_bits r) H /\
      forall i, (Z.of_nat ((X i * Y i) mod 2 ^ m + 2 ^ m * H i) mod 2 ^ Z.of_nat (2 * m) = (sval m (X i) * Z.of_nat (Y i)) mod 2 ^ Z.of_nat (2 * m))%Z.
  Proof.
    intros Hm E n w X Y HS HB. set (z1 := fun i => (hi m (X i) (Y i) + 2 ^ m - Y i) mod 2 ^ m). set (H := fun i => if neg m (X i) then z1 i else hi m (X i) (Y i)).
    destruct (can_run F basis n _ _ _ t r t' w (mul_su_can n m lb g X Y (fun j i => tb (z1 i) j) Hm HB ltac:(intros; apply tb_isbit) ltac:(intros i; apply (odd_submod F C2); [auto|apply HB])) E (fun w' A' => conj (HS w' A') I)) as (w' & A' & S' & KX & KY & KL & KH).
    exists w', H. split; [exact A'|]. split; [exact S'|]. split; [exact KX|]. split; [exact KY|]. split; [exact KL|]. split.
    - intros j Hj i Hi. rewrite (KH j Hj i Hi). unfold H. destruct (neg m (X i)); reflexivity.
    - intros i. destruct (HB i) as [B1 B2]. set (M := 2 ^ m) in *.
      assert (MZ : Z.of_nat M = (2 ^ Z.of_nat m)%Z) by (unfold M; rewrite Nat2Z.inj_pow; reflexivity).
      assert (M2 : (2 ^ Z.of_nat (2 * m) = Z.of_nat M * Z.of_nat M)%Z) by (rewrite MZ, <- Z.pow_add_r by lia; f_equal; lia).
      assert (M0 : (0 < Z.of_nat M)%Z) by lia.
      assert (EX : Z.of_nat (X i * Y i) = (Z.of_nat ((X i * Y i) mod M) + Z.of_nat M * Z.of_nat (X i * Y i / M))%Z) by (rewrite <- Nat2Z.inj_mul, <- Nat2Z.inj_add; f_equal; pose proof (Nat.div_mod (X i * Y i) M); lia).
      assert (EQ : forall a b, (a mod Z.of_nat M = b mod Z.of_nat M)%Z -> exists k, (a = b + k * Z.of_nat M)%Z).
      { intros a b Eab. exists (a / Z.of_nat M - b / Z.of_nat M)%Z. pose proof (Z.div_mod a (Z.of_nat M)). pose proof (Z.div_mod b (Z.of_nat M)). nia. }
      destruct (EQ _ _ (sub_mod_Z (X i * Y i / M) (Y i) M B2)) as [k1 E1]. fold (z1 i) in E1.
      rewrite M2. rewrite Nat2Z.inj_add, Nat2Z.inj_mul. unfold sval. rewrite <- MZ. rewrite Nat2Z.inj_mul in EX.
      set (lo := Z.of_nat ((X i * Y i) mod M)) in *. set (MM := Z.of_nat M) in *. set (x' := Z.of_nat (X i)) in *. set (y' := Z.of_nat (Y i)) in *.
      assert (FIN : forall a b k, (a = b + k * (MM * MM))%Z -> (a mod (MM * MM) = b mod (MM * MM))%Z) by (intros a b k ->; apply Z.mod_add; nia).
      unfold H. destruct (neg m (X i)).
      + apply (FIN _ _ k1). rewrite E1. nia.
      + apply (FIN _ _ 0%Z). nia.
  Qed.

  (** MulSU32 also accepts wrong products: when the signed operand is negative, every high half with the right lowest bit is accepted. *)
  Theorem mul_su_refuted lb m g t r t' : 0 < m -> mul_su_new F basis lb m g t = (r, t') ->
    forall n w X Y H, (forall w', agree F (len t) w w' -> satisfies F basis n w' t) -> (forall i, X i < 2 ^ m /\ Y i < 2 ^ m) -> (forall i, neg m (X i) = true) ->
    (forall i, Nat.odd (H i) = xorb (Nat.odd (X i * Y i / 2 ^ m)) (Nat.odd (Y i))) ->
    exists w', agree F (len t) w w' /\ satisfies F basis n w' t' /\ holdn n m w' (mu_x_bits r) X /\ holdn n m w' (mu_y_bits r) Y /\
      holdn n m w' (mu_low_bits r) (fun i => (X i * Y i) mod 2 ^ m) /\ holdn n m w' (mu_high_bits r) H.
  Proof.
    intros Hm E n w X Y H HS HB HN HO.
    destruct (can_run F basis n _ _ _ t r t' w (mul_su_can n m lb g X Y (fun j i => tb (H i) j) Hm HB ltac:(intros; apply tb_isbit)
      ltac:(intros i; unfold AddProps.tb; rewrite !Nat.bit0_odd, HO; fold (bF F (Nat.odd (X i * Y i / 2 ^ m))) (bF F (Nat.odd (Y i))); now rewrite (xor_F F C2))) E (fun w' A' => conj (HS w' A') I)) as (w' & A' & S' & KX & KY & KL & KH).
    exists w'. split; [exact A'|]. split; [exact S'|]. split; [exact KX|]. split; [exact KY|]. split; [exact KL|]. intros j Hj i Hi. rewrite (KH j Hj i Hi), HN. reflexivity.
  Qed.

  (** *** What every satisfying assignment of the signed multipliers has *)
  Lemma col_bit n m w l i j : bitcols n m w l -> i < n -> j < m -> w (nthc l j) i = bF F (Nat.testbit (num m w l i) j).
  Proof. intros B Hi Hj. rewrite (bits_of_num F (fun j => w (nthc l j) i) m (num m w l i)); auto. Qed.
  Lemma bF_inj a b : bF F a = bF F b -> a = b.
  Proof. destruct a, b; unfold bF; auto; intros E; [now destruct (f_10 F)|symmetry in E; now destruct (f_10 F)]. Qed.
  (** The selector [a + s (a + b)] on columns of bits. *)
  Lemma select_cols n m w (s : col) (a b c : list col) : bitcols n m w a -> bitcols n m w b -> (forall i, i < n -> isbit (w s i)) ->
    (forall j, j < m -> forall i, i < n -> w (nthc c j) i = (w (nthc a j) i + w s i * (w (nthc a j) i + w (nthc b j) i))%F) ->
    bitcols n m w c /\ forall i, i < n -> num m w c i = if on (w s i) then num m w b i else num m w a i.
  Proof.
    intros BA BB BS EC. assert (E : forall j, j < m -> forall i, i < n -> w (nthc c j) i = if on (w s i) then w (nthc b j) i else w (nthc a j) i).
    { intros j Hj i Hi. rewrite EC by auto. unfold on. destruct (BS i Hi) as [-> | ->].
      - rewrite feqb_refl. cbn [negb]. ring.
      - destruct (feqb_spec F f1 f0) as [E1|]; [now destruct (f_10 F)|]. cbn [negb]. transitivity ((w (nthc a j) i + w (nthc a j) i) + w (nthc b j) i)%F; [ring|]. rewrite (char2_double F C2). ring. }
    split; [intros j Hj i Hi; rewrite E by auto; destruct (on _); auto|]. intros i Hi. unfold WideProps.num. rewrite (bnum_ext F _ _ m (fun j Hj => E j Hj i Hi)). destruct (on _); reflexivity.
  Qed.
  Lemma on_bF b : on (bF F b) = b.
  Proof. unfold on, bF. destruct b; [destruct (feqb_spec F f1 f0) as [E1|]; [now destruct (f_10 F)|reflexivity]|now rewrite feqb_refl]. Qed.
  Lemma wide_sub_odd n lb m x y : 0 < m -> ens F basis n (wide_sub_new F lb m x y commit_z) (fun w s => bitcols n m w x -> bitcols n m w y -> bitcols n m w (ws_zout s) /\
      forall i, i < n -> Nat.odd (num m w (ws_zout s) i) = xorb (Nat.odd (num m w x i)) (Nat.odd (num m w y i))).
  Proof.
    intros Hm t s t' E w SW. split; [apply (wide_sub_ens F C2 basis n lb m x y commit_z Hm t s t' E w SW)|]. intros BX BY.
    destruct (wide_sub_sound_partial F C2 basis lb m x y commit_z t s t' Hm E n w SW BX BY I) as [BZ HZ]. split; [exact BZ|]. intros i Hi. specialize (HZ i Hi). cbn [borrow_in_bit commit_z] in HZ.
    rewrite (col_bit n m w (ws_zout s) i 0), (col_bit n m w x i 0), (col_bit n m w y i 0) in HZ by auto. rewrite <- !Nat.bit0_odd. apply bF_inj. rewrite HZ, (xor_F F C2). ring.
  Qed.

  Theorem mul_su_sound_partial lb m g t r t' : 0 < m -> has_order F g (2 ^ (2 * m) - 1) -> mul_su_new F basis lb m g t = (r, t') ->
    forall n w, satisfies F basis n w t' ->
    bitcols n m w (mu_x_bits r) /\ bitcols n m w (mu_y_bits r) /\ bitcols n m w (mu_low_bits r) /\ bitcols n m w (mu_high_bits r) /\
    forall i, i < n -> exists h, num m w (mu_x_bits r) i * num m w (mu_y_bits r) i = num m w (mu_low_bits r) i + 2 ^ m * h /\
      (neg m (num m w (mu_x_bits r) i) = false -> num m w (mu_high_bits r) i = h) /\
      (neg m (num m w (mu_x_bits r) i) = true -> Nat.odd (num m w (mu_high_bits r) i) = xorb (Nat.odd h) (Nat.odd (num m w (mu_y_bits r) i))).
  Proof.
    intros Hm HG E n w SW. revert t r t' E w SW.
    match goal with |- forall t r t', _ -> forall w, _ -> @?K r w => assert (EN : ens F basis n (mul_su_new F basis lb m g) (fun w r => K r w)); [|intros t r t' E w SW; exact (proj2 (EN t r t' E w SW))] end. cbv beta.
    unfold mul_su_new. eapply ens_conseq.
    - eapply ens_bind; [apply ens_bits|intros x]. eapply ens_bind; [apply ens_bits|intros y].
      eapply ens_bind; [eapply ens_true, (ens_computed F C2)|intros xin]. eapply ens_bind; [eapply ens_true, (ens_computed F C2)|intros yin].
      eapply ens_bind; [apply (mul_sound_ens F C2 basis n m g x y Hm HG)|intros mi]. eapply ens_bind; [apply (wide_sub_odd n lb m); exact Hm|intros ys].
      eapply ens_bind; [apply (ens_from_fn F basis n 0); intros j Hj; apply (ens_computed F C2)|intros oh].
      eapply ens_bind; [eapply ens_true, (ens_computed F C2)|intros ph]. eapply ens_bind; [eapply ens_true, (ens_computed F C2)|intros pl].
      match goal with |- ens _ _ _ (bret F ?v) _ => apply (ens_ret F basis n v (fun _ b => b = v)); reflexivity end.
    - intros w r HW. cbn zeta in HW. destruct HW as (x & [LX BX] & y & [LY BY] & xin & _ & yin & _ & mi & XM & ys & XS & oh & [_ XO] & ph & _ & pl & _ & ->).
      cbn [mu_x_bits mu_y_bits mu_low_bits mu_high_bits]. destruct (XM LX LY BX BY) as (BL & BH & HM). destruct (XS BH BY) as [BS HS].
      destruct (select_cols n m w (nthc x (m - 1)) (m_high_bits mi) (ws_zout ys) oh BH BS) as [BO HO]; [intros i Hi; apply BX; auto; lia| |].
      { intros j Hj i Hi. specialize (XO j Hj i). cbn [eeval SignedModel.ECol' Nat.add] in XO. apply XO. lia. }
      repeat (split; [assumption|]). intros i Hi. exists (num m w (m_high_bits mi) i). split; [now apply HM|]. rewrite (HO i Hi), (col_bit n m w x i (m - 1)), on_bF by (auto; lia). unfold neg. split; intros ->; [reflexivity|now apply HS].
  Qed.

  (** MulSS32: the low half is right; the high half is right when both operands are non-negative, and otherwise only its lowest bit is. *)
  Theorem mul_ss_sound_partial lb m g x y t r t' : 0 < m -> length x = m -> length y = m -> has_order F g (2 ^ (2 * m) - 1) -> mul_ss_with_input F basis lb m g x y t = (r, t') ->
    forall n w, satisfies F basis n w t' -> bitcols n m w x -> bitcols n m w y -> bitcols n m w (ms_low_bits r) /\ bitcols n m w (ms_high_bits r) /\
    forall i, i < n -> let X := num m w x i in let Y := num m w y i in exists h, X * Y = num m w (ms_low_bits r) i + 2 ^ m * h /\
      (neg m X = false -> neg m Y = false -> num m w (ms_high_bits r) i = h) /\
      Nat.odd (num m w (ms_high_bits r) i) = xorb (Nat.odd h) (xorb (neg m X && Nat.odd Y) (neg m Y && Nat.odd X)).
  Proof.
    intros Hm LX LY HG E n w SW BX BY. revert t r t' E w SW BX BY.
    match goal with |- forall t r t', _ -> forall w, _ -> @?K r w => assert (EN : ens F basis n (mul_ss_with_input F basis lb m g x y) (fun w r => K r w)); [|intros t r t' E w SW; exact (proj2 (EN t r t' E w SW))] end. cbv beta.
    unfold mul_ss_with_input. eapply ens_conseq.
    - eapply ens_bind; [eapply ens_true, (ens_computed F C2)|intros xin]. eapply ens_bind; [eapply ens_true, (ens_computed F C2)|intros yin].
      eapply ens_bind; [apply (mul_sound_ens F C2 basis n m g x y Hm HG)|intros mi]. eapply ens_bind; [apply (wide_sub_odd n lb m); exact Hm|intros ys].
      eapply ens_bind; [apply (ens_from_fn F basis n 0); intros j Hj; apply (ens_computed F C2)|intros nh].
      eapply ens_bind; [apply (wide_sub_odd n lb m); exact Hm|intros xs].
      eapply ens_bind; [apply (ens_from_fn F basis n 0); intros j Hj; apply (ens_computed F C2)|intros oh].
      eapply ens_bind; [eapply ens_true, (ens_computed F C2)|intros ph]. eapply ens_bind; [eapply ens_true, (ens_computed F C2)|intros pl].
      match goal with |- ens _ _ _ (bret F ?v) _ => apply (ens_ret F basis n v (fun _ b => b = v)); reflexivity end.
    - intros w r HW BX BY. cbn zeta in HW. destruct HW as (xin & _ & yin & _ & mi & XM & ys & XS & nh & [_ XN] & xs & XS2 & oh & [_ XO] & ph & _ & pl & _ & ->).
      cbn [ms_low_bits ms_high_bits]. destruct (XM LX LY BX BY) as (BL & BH & HM). destruct (XS BH BY) as [BS HS].
      destruct (select_cols n m w (nthc x (m - 1)) (m_high_bits mi) (ws_zout ys) nh BH BS) as [BN HN]; [intros i Hi; apply BX; auto; lia| |].
      { intros j Hj i Hi. specialize (XN j Hj i). cbn [eeval GadgetModel.ECol' Nat.add] in XN. apply XN. lia. }
      destruct (XS2 BN BX) as [BS2 HS2].
      destruct (select_cols n m w (nthc y (m - 1)) nh (ws_zout xs) oh BN BS2) as [BO HO]; [intros i Hi; apply BY; auto; lia| |].
      { intros j Hj i Hi. specialize (XO j Hj i). cbn [eeval GadgetModel.ECol' Nat.add] in XO. apply XO. lia. }
      repeat (split; [assumption|]). intros i Hi. cbv zeta. exists (num m w (m_high_bits mi) i). split; [now apply HM|].
      specialize (HO i Hi). specialize (HN i Hi). specialize (HS i Hi). specialize (HS2 i Hi). rewrite (col_bit n m w y i (m - 1)), on_bF in HO by (auto; lia). rewrite (col_bit n m w x i (m - 1)), on_bF in HN by (auto; lia). unfold neg.
      destruct (Nat.testbit (num m w x i) (m - 1)), (Nat.testbit (num m w y i) (m - 1)); cbn [andb xorb]; rewrite HO, ?HS2, HN, ?HS; (split; [intros E1 E2; first [discriminate|reflexivity]|]); destruct (Nat.odd (num m w (m_high_bits mi) i)), (Nat.odd (num m w x i)), (Nat.odd (num m w y i)); reflexivity.
  Qed.
End Signed.
