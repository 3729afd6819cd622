(** C42: the shift indicator polynomials. *)
Require Import Coq.setoid_ring.Ring Coq.Arith.Arith Coq.Lists.List Coq.Bool.Bool Coq.NArith.NArith Lia.
From Verif Require Import Base.Fld Base.Lists Base.Sums Math.MleSpec Math.MleModel Math.TensorProps
  Math.MleProofs Math.MleProps Field.Examples Transparent.TransparentModel Transparent.TransparentProps
  Transparent.ShiftModel.
Import ListNotations.
Local Close Scope N_scope.
Local Open Scope nat_scope.

(** * Specification *)

(** The shift indicator on hypercube points, by their indices [x] and [y] below [2^b]:
    circular left: [y - o = x] modulo [2^b]; logical left: [y - o = x]; logical right: [y + o = x]. *)
Definition shifted_pair (v : shift_variant) (b o x y : nat) : bool :=
  match v with
  | CircularLeft => (x + o) mod 2 ^ b =? y
  | LogicalLeft => x + o =? y
  | LogicalRight => y + o =? x
  end.

Section Props.
  Variable F : field.
  Hypothesis C2 : char2 F.
  Local Open Scope fld_scope.
  Add Ring Fring : (f_ring F).

  Definition shift_matrix (v : shift_variant) (b o x y : nat) : F :=
    if shifted_pair v b o x y then 1 else 0.

  (** The indicator of a valid shift has the announced effect on a column [a] of [2^b] values:
      the entry moves from [x + o] (or [x - o]) to [x], and zeros are shifted in. *)
  Theorem shift_matrix_action v b o x (a : nat -> F) : (o < 2 ^ b)%nat -> (x < 2 ^ b)%nat ->
    sumn (2 ^ b) (fun y => shift_matrix v b o x y * a y) =
      match v with
      | CircularLeft => a ((x + o) mod 2 ^ b)%nat
      | LogicalLeft => if (x + o <? 2 ^ b)%nat then a (x + o)%nat else 0
      | LogicalRight => if (o <=? x)%nat then a (x - o)%nat else 0
      end.
  Proof.
    intros Ho Hx. assert (S1 : forall z f, (z < 2 ^ b)%nat -> (forall y, f y = if (z =? y)%nat then a y else 0) -> sumn (2 ^ b) f = a z).
    { intros z f Hz Hf. rewrite (sumn_single F (2 ^ b) z f Hz).
      - now rewrite Hf, Nat.eqb_refl.
      - intros y _ Hy. rewrite Hf. rewrite (proj2 (Nat.eqb_neq _ _)); auto. }
    assert (S0 : forall f : nat -> F, (forall y, (y < 2 ^ b)%nat -> f y = 0) -> sumn (2 ^ b) f = 0).
    { intros f Hf. now apply sumn_zero. }
    unfold shift_matrix, shifted_pair. destruct v.
    - apply S1; [apply Nat.mod_upper_bound; lia|]. intros y. destruct (_ =? y)%nat; ring.
    - destruct (Nat.ltb_spec (x + o) (2 ^ b)) as [H|H].
      + apply S1; auto. intros y. destruct (_ =? y)%nat; ring.
      + apply S0. intros y Hy. rewrite (proj2 (Nat.eqb_neq _ _)) by lia. ring.
    - destruct (Nat.leb_spec o x) as [H|H].
      + apply S1; [lia|]. intros y. destruct (Nat.eqb_spec (y + o) x), (Nat.eqb_spec (x - o) y); try lia; ring.
      + apply S0. intros y Hy. rewrite (proj2 (Nat.eqb_neq _ _)) by lia. ring.
  Qed.

  (** * The two running indicators *)
  Section Run.
    Variable o : nat.
    Variable r : list F.

    Definition tp (j x : nat) : F :=
      if (x + o mod 2 ^ j <? 2 ^ j)%nat then eqw (firstn j r) (x + o mod 2 ^ j) else 0.
    Definition tpp (j x : nat) : F :=
      if (x + o mod 2 ^ j <? 2 ^ j)%nat then 0 else eqw (firstn j r) (x + o mod 2 ^ j - 2 ^ j).

    Lemma firstn_snoc (l : list F) j : (j < length l)%nat -> firstn (S j) l = firstn j l ++ [nth j l 0].
    Proof.
      revert j. induction l as [|a l IH]; intros [|j] Hj; cbn [length] in Hj; try lia; cbn [firstn nth app]; auto.
      f_equal. apply IH. lia.
    Qed.

    Lemma eqw_snoc j u c : (j < length r)%nat -> (u < 2 ^ j)%nat -> (c < 2)%nat ->
      eqw (firstn (S j) r) (u + c * 2 ^ j) = eqw (firstn j r) u * (if (c =? 1)%nat then nth j r 0 else 1 - nth j r 0).
    Proof.
      intros Hj Hu Hc.
      pose proof (firstn_snoc r j Hj) as E.
      assert (L : length (firstn j r) = j) by (rewrite firstn_length; lia).
      pose proof (pow2_gt0 j). rewrite E, eqw_app, L, Nat.mod_add, Nat.div_add, Nat.mod_small, Nat.div_small by lia.
      cbn [Nat.add eqw]. destruct c as [|[|c]]; [cbn|cbn|lia]; ring.
    Qed.

    Lemma o_mod_S j : (o mod 2 ^ S j = o mod 2 ^ j + (if Nat.odd (o / 2 ^ j) then 1 else 0) * 2 ^ j)%nat.
    Proof.
      pose proof (pow2_gt0 j). rewrite Nat.pow_succ_r', Nat.mul_comm, Nat.mod_mul_r by lia. f_equal.
      rewrite <- Nat.bit0_odd. pose proof (Nat.bit0_mod (o / 2 ^ j)) as E. unfold Nat.b2n in E.
      destruct (Nat.testbit (o / 2 ^ j) 0); rewrite <- E; lia.
    Qed.

    Lemma run_step j x : (j < length r)%nat -> (x < 2 ^ j)%nat ->
      let rj := nth j r 0 in
      let x' := (2 ^ j + x)%nat in
      if Nat.odd (o / 2 ^ j) then
        tp (S j) x = tp j x * rj /\ tp (S j) x' = 0 /\
        tpp (S j) x = tpp j x - tpp j x * rj /\
        tpp (S j) x' = tpp j x * rj + (tp j x - tp j x * rj)
      else
        tp (S j) x = tp j x - tp j x * rj + (tpp j x - tpp j x * (1 - rj)) /\
        tp (S j) x' = tp j x * rj /\
        tpp (S j) x = 0 /\ tpp (S j) x' = tpp j x * (1 - rj).
    Proof.
      intros Hj Hx rj x'. unfold tp, tpp, x'. rewrite o_mod_S.
      pose proof (Nat.mod_upper_bound o (2 ^ j) ltac:(pose proof (pow2_gt0 j); lia)) as Hm.
      set (m := (o mod 2 ^ j)%nat) in *.
      assert (EP : (2 ^ S j = 2 ^ j + 2 ^ j)%nat) by (cbn; lia). rewrite EP.
      assert (A : forall z u c, (c < 2)%nat -> (u < 2 ^ j)%nat -> z = (u + c * 2 ^ j)%nat ->
                eqw (firstn (S j) r) z = eqw (firstn j r) u * (if (c =? 1)%nat then rj else 1 - rj)).
      { intros z u c Hc Hu ->. now apply eqw_snoc. }
      destruct (Nat.odd (o / 2 ^ j)), (Nat.ltb_spec (x + m) (2 ^ j)) as [H|H];
        rewrite ?Nat.mul_1_l, ?Nat.mul_0_l, ?Nat.add_0_r;
        repeat match goal with |- context [(?a <? ?b)%nat] =>
          (rewrite (proj2 (Nat.ltb_lt a b)) by lia) || (rewrite (proj2 (Nat.ltb_ge a b)) by lia) end.
      - rewrite (A (x + (m + 2 ^ j))%nat (x + m)%nat 1%nat) by lia.
        rewrite (A (2 ^ j + x + (m + 2 ^ j) - (2 ^ j + 2 ^ j))%nat (x + m)%nat 0%nat) by lia.
        cbn [Nat.eqb]. repeat split; ring.
      - rewrite (A (x + (m + 2 ^ j) - (2 ^ j + 2 ^ j))%nat (x + m - 2 ^ j)%nat 0%nat) by lia.
        rewrite (A (2 ^ j + x + (m + 2 ^ j) - (2 ^ j + 2 ^ j))%nat (x + m - 2 ^ j)%nat 1%nat) by lia.
        cbn [Nat.eqb]. repeat split; ring.
      - rewrite (A (x + m)%nat (x + m)%nat 0%nat) by lia.
        rewrite (A (2 ^ j + x + m)%nat (x + m)%nat 1%nat) by lia.
        cbn [Nat.eqb]. repeat split; ring.
      - rewrite (A (x + m)%nat (x + m - 2 ^ j)%nat 1%nat) by lia.
        rewrite (A (2 ^ j + x + m - (2 ^ j + 2 ^ j))%nat (x + m - 2 ^ j)%nat 0%nat) by lia.
        cbn [Nat.eqb]. repeat split; ring.
    Qed.

    Lemma run_0 : tp 0 0 = 1 /\ tpp 0 0 = 0.
    Proof. unfold tp, tpp. cbn. split; reflexivity. Qed.

    (** ** Evaluation at a point *)
    Lemma mle_snoc (v : nat -> F) a q :
      mle v (a ++ [q]) = mle (fun y => (1 - q) * v y + q * v (2 ^ length a + y)%nat) a.
    Proof.
      rewrite mle_app_high. apply mle_ext. intros x _. rewrite mle_cons, mle_nil. do 3 f_equal; lia.
    Qed.

    Lemma eq_bin_alt (x y : F) : eq_bin x y = x * y + (1 - x) * (1 - y).
    Proof.
      unfold eq_bin. assert (D : forall a : F, a + a = 0).
      { intros a. transitivity (a * (1 + 1)); [ring|]. rewrite C2. ring. }
      transitivity (x * y + (1 - x) * (1 - y) + ((x + x) + (y + y) - (x * y + x * y))); [ring|]. rewrite !D. ring.
    Qed.

    Lemma help_loop_spec (x : list F) j : (j <= length r)%nat -> (j <= length x)%nat ->
      help_loop j o x r = (mle (tp j) (firstn j x), mle (tpp j) (firstn j x)).
    Proof.
      unfold help_loop. induction j as [|j IH]; intros Hj Hx.
      - cbn [seq fold_left firstn]. rewrite !mle_nil. destruct run_0 as [-> ->]. reflexivity.
      - rewrite seq_S, fold_left_app, IH by lia. cbn [fold_left Nat.add].
        rewrite (firstn_snoc x j) by lia. rewrite !mle_snoc.
        assert (Lx : length (firstn j x) = j) by (rewrite firstn_length; lia). rewrite !Lx.
        set (xs := firstn j x) in *. set (xj := nth j x 0). unfold help_step. fold (nth j r 0).
        pose proof (run_step j) as RS. set (rj := nth j r 0) in *.
        assert (MC : forall (v : nat -> F) c d, (forall y, (y < 2 ^ j)%nat -> v y = c * tp j y + d * tpp j y) ->
                  mle v xs = c * mle (tp j) xs + d * mle (tpp j) xs).
        { intros v c d Hv. rewrite <- mle_lin. apply mle_ext. rewrite Lx. exact Hv. }
        rewrite !eq_bin_alt.
        destruct (Nat.odd (o / 2 ^ j)).
        + f_equal.
          * symmetry. etransitivity; [apply (MC _ ((1 - xj) * rj) 0)|ring]. intros y Hy. destruct (RS y Hj Hy) as (-> & -> & _). ring.
          * symmetry. etransitivity; [apply (MC _ (xj * (1 - rj)) ((1 - xj) * (1 - rj) + xj * rj))|ring].
            intros y Hy. destruct (RS y Hj Hy) as (_ & _ & -> & ->). ring.
        + f_equal.
          * symmetry. etransitivity; [apply (MC _ ((1 - xj) * (1 - rj) + xj * rj) ((1 - xj) * rj))|ring].
            intros y Hy. destruct (RS y Hj Hy) as (-> & -> & _). ring.
          * symmetry. etransitivity; [apply (MC _ 0 (xj * (1 - rj)))|ring]. intros y Hy. destruct (RS y Hj Hy) as (_ & _ & -> & ->). ring.
    Qed.

    (** ** Tabulation *)
    Lemma lanes_length lw (f : nat -> F) : length (lanes lw f) = (2 ^ lw)%nat.
    Proof. unfold lanes. now rewrite map_length, seq_length. Qed.

    Lemma lanes_nth lw (f : nat -> F) i : (i < 2 ^ lw)%nat -> nth i (lanes lw f) 0 = f i.
    Proof. intros. unfold lanes. now apply nth_map_seq. Qed.

    (** The first [2^j] lanes hold the running indicators. *)
    Definition within_ok lw j (s : list F * list F) : Prop :=
      length (fst s) = (2 ^ lw)%nat /\ length (snd s) = (2 ^ lw)%nat /\
      forall x, (x < 2 ^ j)%nat -> nth x (fst s) 0 = tp j x /\ nth x (snd s) 0 = tpp j x.

    Lemma within_body_ok lw j s : (j < lw)%nat -> (j < length r)%nat -> within_ok lw j s ->
      within_ok lw (S j) (within_body lw j (Nat.odd (o / 2 ^ j)) (nth j r 0) s).
    Proof.
      intros Hlw Hj (L1 & L2 & V). destruct s as [p pp]. cbn [fst snd] in *.
      assert (GE : (2 ^ S j <= 2 ^ lw)%nat) by (apply Nat.pow_le_mono_r; lia).
      assert (EP : (2 ^ S j = 2 ^ j + 2 ^ j)%nat) by (cbn; lia).
      assert (EQ : (2 ^ (j + 1) = 2 ^ j + 2 ^ j)%nat) by (rewrite Nat.add_1_r; auto).
      unfold within_ok, within_body, odd_step, even_step. pose proof (run_step j) as RS. cbv zeta in RS.
      destruct (Nat.odd (o / 2 ^ j)); cbn [fst snd]; rewrite !lanes_length; (split; [auto|]; split; [auto|]);
        intros x Hx; rewrite !lanes_nth by lia; rewrite EQ, ?(proj2 (Nat.ltb_lt x (2 ^ j + 2 ^ j))) by lia;
        destruct (Nat.ltb_spec x (2 ^ j)) as [H|H].
      - destruct (V x H) as [-> ->]. destruct (RS x Hj H) as (-> & _ & -> & _). split; ring.
      - destruct (V (x - 2 ^ j)%nat ltac:(lia)) as [-> ->]. destruct (RS (x - 2 ^ j)%nat Hj ltac:(lia)) as (_ & E1 & _ & E2).
        replace (2 ^ j + (x - 2 ^ j))%nat with x in * by lia. rewrite E1, E2. split; ring.
      - destruct (V x H) as [-> ->]. destruct (RS x Hj H) as (-> & _ & -> & _). split; ring.
      - destruct (V (x - 2 ^ j)%nat ltac:(lia)) as [-> ->]. destruct (RS (x - 2 ^ j)%nat Hj ltac:(lia)) as (_ & E1 & _ & E2).
        replace (2 ^ j + (x - 2 ^ j))%nat with x in * by lia. rewrite E1, E2. split; ring.
    Qed.

    Lemma within_packed_ok lw j s : (j <= lw)%nat -> (j <= length r)%nat -> within_ok lw 0 s ->
      exists s', within_packed lw j o r s = Some s' /\ within_ok lw j s'.
    Proof.
      intros Hlw Hj H0. unfold within_packed.
      destruct (ofold_inv (fun s k => do r_k <- nth_error r k; Some (within_body lw k (Nat.odd (o / 2 ^ k)) r_k s))
        (fun m s => within_ok lw m s) (seq 0 j) s 0 H0) as (s' & E & H').
      - intros i b s1 Hb Hs. assert (Hi : (i < j)%nat) by (rewrite <- (seq_length j 0); apply nth_error_Some; congruence).
        assert (b = i).
        { rewrite (nth_error_nth' _ 0%nat) in Hb by now rewrite seq_length. rewrite seq_nth in Hb by auto. injection Hb. lia. }
        subst b. rewrite (nth_error_nth' _ 0) by lia. cbn [obind]. eexists. split; [reflexivity|]. cbn [Nat.add] in *.
        apply within_body_ok; auto; lia.
      - exists s'. split; auto. now rewrite seq_length in H'.
    Qed.

    (** Packed elements [0 .. 2^k - 1] hold the running indicators of level [lw + k]. *)
    Definition elem_ok lw j (ps pps : list (list F)) i x : Prop :=
      exists p pp, nth_error ps i = Some p /\ nth_error pps i = Some pp /\
        length p = (2 ^ lw)%nat /\ length pp = (2 ^ lw)%nat /\
        forall l, (l < 2 ^ lw)%nat -> nth l p 0 = tp j (x * 2 ^ lw + l) /\ nth l pp 0 = tpp j (x * 2 ^ lw + l).

    Definition buffers_ok lw n k (s : list (list F) * list (list F)) : Prop :=
      length (fst s) = n /\ length (snd s) = n /\
      forall i, (i < 2 ^ k)%nat -> elem_ok lw (lw + k) (fst s) (snd s) i i.

    Lemma elem_ok_ext lw j ps pps ps' pps' i x : nth_error ps' i = nth_error ps i -> nth_error pps' i = nth_error pps i ->
      elem_ok lw j ps pps i x -> elem_ok lw j ps' pps' i x.
    Proof. intros E1 E2 (p & pp & H). exists p, pp. now rewrite E1, E2. Qed.

    Lemma buffers_body_ok lw k n s i :
      (lw + k < length r)%nat -> (i < 2 ^ k)%nat -> (2 ^ S k <= n)%nat ->
      length (fst s) = n -> length (snd s) = n -> elem_ok lw (lw + k) (fst s) (snd s) i i ->
      exists s', buffers_body lw k (Nat.odd (o / 2 ^ (lw + k))) (nth (lw + k) r 0) s i = Some s' /\
        length (fst s') = n /\ length (snd s') = n /\
        elem_ok lw (lw + S k) (fst s') (snd s') i i /\
        elem_ok lw (lw + S k) (fst s') (snd s') (2 ^ k + i) (2 ^ k + i) /\
        forall m, m <> i -> m <> (2 ^ k + i)%nat ->
          nth_error (fst s') m = nth_error (fst s) m /\ nth_error (snd s') m = nth_error (snd s) m.
    Proof.
      intros Hj Hi Hn L1 L2 (p & pp & E1 & E2 & Lp & Lpp & V). destruct s as [ps pps]. cbn [fst snd] in *.
      cbn [Nat.pow] in Hn. unfold buffers_body. rewrite E1, E2. cbn [obind]. pose proof (pow2_gt0 lw) as HW.
      pose proof (run_step (lw + k)) as RS. cbv zeta in RS. unfold store, odd_step, even_step. cbn [fst snd].
      assert (EX : forall l, (2 ^ (lw + k) + (i * 2 ^ lw + l) = (2 ^ k + i) * 2 ^ lw + l)%nat) by (intros; rewrite Nat.pow_add_r; lia).
      assert (HX : forall l, (l < 2 ^ lw)%nat -> (i * 2 ^ lw + l < 2 ^ (lw + k))%nat) by (intros; rewrite Nat.pow_add_r; nia).
      rewrite Nat.add_succ_r.
      assert (NE : forall (A : Type) (l : list A) a b, length l = n -> nth_error (upd (upd l i a) (2 ^ k + i) b) i = Some a /\
                     nth_error (upd (upd l i a) (2 ^ k + i) b) (2 ^ k + i) = Some b /\
                     forall m, m <> i -> m <> (2 ^ k + i)%nat -> nth_error (upd (upd l i a) (2 ^ k + i) b) m = nth_error l m).
      { intros A l a b Ll. rewrite nth_error_upd_ne by lia. rewrite nth_error_upd_eq by lia.
        rewrite nth_error_upd_eq by (rewrite upd_length; lia). split; auto. split; auto.
        intros m H1 H2. rewrite !nth_error_upd_ne by auto. reflexivity. }
      destruct (Nat.odd (o / 2 ^ (lw + k)));
        repeat (rewrite ?upd_length, ?L1, ?L2;
                match goal with |- context [(?a <? n)%nat] => rewrite (proj2 (Nat.ltb_lt a n)) by lia end; cbn [obind]);
        (eexists; split; [reflexivity|]; cbn [fst snd]; rewrite !upd_length; split; [auto|]; split; [auto|]).
      all: match goal with |- elem_ok _ _ (upd (upd _ _ ?a) _ ?b) (upd (upd _ _ ?c) _ ?d) _ _ /\ _ =>
             destruct (NE _ ps a b L1) as (N1 & N2 & N3); destruct (NE _ pps c d L2) as (N4 & N5 & N6) end.
      all: split; [eexists _, _; split; [exact N1|]; split; [exact N4|]|
                   split; [eexists _, _; split; [exact N2|]; split; [exact N5|]|]].
      all: try (rewrite !lanes_length; split; [auto|]; split; [auto|]; intros l Hl; rewrite !lanes_nth by auto;
                destruct (V l Hl) as [-> ->]; destruct (RS (i * 2 ^ lw + l)%nat Hj (HX l Hl)) as (R1 & R2 & R3 & R4);
                rewrite <- ?EX; rewrite ?R1, ?R2, ?R3, ?R4; split; ring).
      all: intros m H1 H2; rewrite N3, N6 by auto; auto.
    Qed.

    Lemma seq_nth_error n i b : nth_error (seq 0 n) i = Some b -> (i < n)%nat /\ b = i.
    Proof.
      intros Hb. assert (Hi : (i < n)%nat) by (rewrite <- (seq_length n 0); apply nth_error_Some; congruence). split; auto.
      rewrite (nth_error_nth' _ 0%nat) in Hb by now rewrite seq_length. rewrite seq_nth in Hb by auto. injection Hb. lia.
    Qed.

    Lemma buffers_round_ok lw k n s : (lw + k < length r)%nat -> (2 ^ S k <= n)%nat -> buffers_ok lw n k s ->
      exists s', ofold (buffers_body lw k (Nat.odd (o / 2 ^ (lw + k))) (nth (lw + k) r 0)) (seq 0 (2 ^ k)) s = Some s' /\
        buffers_ok lw n (S k) s'.
    Proof.
      intros Hj Hn (L1 & L2 & V).
      destruct (ofold_inv (buffers_body lw k (Nat.odd (o / 2 ^ (lw + k))) (nth (lw + k) r 0))
        (fun m s => length (fst s) = n /\ length (snd s) = n /\ forall i, (i < 2 ^ k)%nat ->
           if (i <? m)%nat then elem_ok lw (lw + S k) (fst s) (snd s) i i /\ elem_ok lw (lw + S k) (fst s) (snd s) (2 ^ k + i) (2 ^ k + i)
           else elem_ok lw (lw + k) (fst s) (snd s) i i)
        (seq 0 (2 ^ k)) s 0) as (s' & E & L1' & L2' & V').
      - split; auto.
      - intros i b s1 Hb (M1 & M2 & W). apply seq_nth_error in Hb. destruct Hb as [Hi ->]. cbn [Nat.add] in *.
        assert (W0 := W i Hi). rewrite Nat.ltb_irrefl in W0.
        destruct (buffers_body_ok lw k n s1 i Hj Hi Hn M1 M2 W0) as (s2 & E2 & K1 & K2 & O1 & O2 & Oth).
        exists s2. split; auto. split; auto. split; auto. intros m Hm. specialize (W m Hm).
        destruct (Nat.eq_dec m i) as [->|NE].
        + rewrite (proj2 (Nat.ltb_lt _ _)) by lia. auto.
        + assert (EE : (m <? S i)%nat = (m <? i)%nat).
          { destruct (Nat.ltb_spec m (S i)), (Nat.ltb_spec m i); auto; lia. }
          rewrite EE. destruct (Nat.ltb_spec m i).
          * destruct W as [W1 W2]. destruct (Oth m ltac:(lia) ltac:(lia)) as [A1 A2].
            destruct (Oth (2 ^ k + m)%nat ltac:(lia) ltac:(lia)) as [A3 A4].
            split; [apply (elem_ok_ext _ _ _ _ _ _ _ _ A1 A2 W1)|apply (elem_ok_ext _ _ _ _ _ _ _ _ A3 A4 W2)].
          * destruct (Oth m ltac:(lia) ltac:(lia)) as [A1 A2]. apply (elem_ok_ext _ _ _ _ _ _ _ _ A1 A2 W).
      - exists s'. split; auto. split; auto. split; auto. rewrite seq_length in V'. cbn [Nat.add] in V'.
        intros i Hi. cbn [Nat.pow] in Hi. destruct (Nat.lt_ge_cases i (2 ^ k)) as [H|H].
        + specialize (V' i H). rewrite (proj2 (Nat.ltb_lt _ _)) in V' by auto. apply V'.
        + specialize (V' (i - 2 ^ k)%nat ltac:(lia)). rewrite (proj2 (Nat.ltb_lt _ _)) in V' by lia.
          replace (2 ^ k + (i - 2 ^ k))%nat with i in V' by lia. apply V'.
    Qed.

    Lemma with_buffers_ok lw k n s : (lw + k <= length r)%nat -> (2 ^ k <= n)%nat -> buffers_ok lw n 0 s ->
      exists s', with_buffers lw k (o / 2 ^ lw) (skipn lw r) s = Some s' /\ buffers_ok lw n k s'.
    Proof.
      intros Hk Hn H0. unfold with_buffers.
      destruct (ofold_inv (fun s k0 => do r_k <- nth_error (skipn lw r) k0;
           ofold (buffers_body lw k0 (Nat.odd (o / 2 ^ lw / 2 ^ k0)) r_k) (seq 0 (2 ^ k0)) s)
        (fun m s => buffers_ok lw n m s) (seq 0 k) s 0 H0) as (s' & E & H').
      - intros i b s1 Hb Hs. apply seq_nth_error in Hb. destruct Hb as [Hi ->]. cbn [Nat.add] in *.
        rewrite nth_error_skipn, (nth_error_nth' _ 0) by lia. cbn [obind].
        rewrite Nat.div_div by (apply Nat.pow_nonzero; lia). rewrite <- Nat.pow_add_r.
        apply buffers_round_ok; auto; [lia|]. apply Nat.le_trans with (2 ^ k)%nat; auto. apply Nat.pow_le_mono_r; lia.
      - exists s'. split; auto. now rewrite seq_length in H'.
    Qed.

    Lemma hypercube_ok lw b : length r = b -> valid_shift_args b o r = true ->
      exists ps pps, partial_evaluate_hypercube lw b o r = Ok (ps, pps) /\
        length ps = (2 ^ (b - lw))%nat /\ length pps = (2 ^ (b - lw))%nat /\
        forall i, (i < 2 ^ (b - lw))%nat -> exists p pp, nth_error ps i = Some p /\ nth_error pps i = Some pp /\
          length p = (2 ^ lw)%nat /\ length pp = (2 ^ lw)%nat /\
          forall l, (l < 2 ^ lw)%nat -> (i * 2 ^ lw + l < 2 ^ b)%nat ->
            nth l p 0 = tp b (i * 2 ^ lw + l) /\ nth l pp 0 = tpp b (i * 2 ^ lw + l).
    Proof.
      intros Lr Hv. unfold partial_evaluate_hypercube. rewrite Hv. cbn [negb]. cbv zeta.
      set (n := (2 ^ (b - lw))%nat). assert (Hn : (0 < n)%nat) by apply pow2_gt0.
      rewrite !(nth_error_nth' _ []) by (rewrite repeat_length; auto). cbn [obind].
      rewrite !nth_repeat0 by auto.
      destruct (within_packed_ok lw (Nat.min b lw) (lanes lw (fun _ => 1), lanes lw (fun _ => 0))) as ([p0 pp0] & -> & W1 & W2 & W3);
        [lia|lia| |].
      { split; [apply lanes_length|]. split; [apply lanes_length|]. intros x Hx. cbn in Hx. replace x with 0%nat by lia.
        cbn [fst snd]. rewrite !lanes_nth by apply pow2_gt0. destruct run_0 as [-> ->]. auto. }
      cbn [obind fst snd] in *. set (ps := repeat _ n). set (pps := repeat (lanes lw (fun _ => 0)) n).
      assert (Lps : length ps = n) by apply repeat_length. assert (Lpps : length pps = n) by apply repeat_length.
      destruct (Nat.ltb_spec lw b) as [H|H].
      - rewrite Nat.min_r in W3 by lia.
        destruct (with_buffers_ok lw (b - lw) n (upd ps 0 p0, upd pps 0 pp0)) as ([qs qqs] & -> & Q1 & Q2 & Q3); [lia|auto| |].
        { split; [cbn [fst]; now rewrite upd_length|]. split; [cbn [snd]; now rewrite upd_length|]. cbn [fst snd].
          intros i Hi. cbn in Hi. replace i with 0%nat by lia. exists p0, pp0. rewrite !nth_error_upd_eq by lia.
          split; auto. split; auto. split; auto. split; auto. intros l Hl. rewrite Nat.add_0_r. cbn [Nat.mul Nat.add]. apply W3; auto. }
        exists qs, qqs. cbn [of_opt fst snd] in *. split; auto. split; auto. split; auto.
        intros i Hi. destruct (Q3 i Hi) as (p & pp & G1 & G2 & G3 & G4 & G5). exists p, pp. repeat split; auto.
        + intros. replace b with (lw + (b - lw))%nat by lia. now apply G5.
        + intros. replace b with (lw + (b - lw))%nat by lia. now apply G5.
      - assert (En : n = 1%nat) by (unfold n; replace (b - lw)%nat with 0%nat by lia; reflexivity).
        rewrite Nat.min_l in W3 by lia. exists (upd ps 0 p0), (upd pps 0 pp0). cbn [of_opt].
        rewrite !upd_length. split; auto. split; auto. split; auto.
        intros i Hi. replace i with 0%nat by lia. exists p0, pp0. rewrite !nth_error_upd_eq by lia.
        (split; [auto|split; [auto|split; [auto|split; [auto|]]]]); intros l Hl Hl2; cbn [Nat.mul Nat.add] in *; now apply W3.
    Qed.

    (** The final running indicators in closed form. *)
    Lemma final_tp b x : length r = b -> (o < 2 ^ b)%nat ->
      tp b x = (if (x + o <? 2 ^ b)%nat then eqw r (x + o) else 0) /\
      tpp b x = (if (x + o <? 2 ^ b)%nat then 0 else eqw r (x + o - 2 ^ b)).
    Proof.
      intros Lr Ho. unfold tp, tpp. rewrite Nat.mod_small by auto. rewrite <- Lr, firstn_all. auto.
    Qed.
  End Run.

  (** * The results *)

  (** Partial evaluation of the multilinear indicator at [Y = r]: the table over [x]. *)
  Definition shift_table (v : shift_variant) (b o : nat) (r : list F) (x : nat) : F :=
    mle (shift_matrix v b o x) r.

  Lemma shift_table_closed v b o r x : length r = b -> (o < 2 ^ b)%nat -> (x < 2 ^ b)%nat ->
    shift_table v b o r x =
      match v with
      | CircularLeft => eqw r ((x + o) mod 2 ^ b)%nat
      | LogicalLeft => if (x + o <? 2 ^ b)%nat then eqw r (x + o)%nat else 0
      | LogicalRight => if (o <=? x)%nat then eqw r (x - o)%nat else 0
      end.
  Proof.
    intros Lr Ho Hx. unfold shift_table, mle. rewrite Lr. now apply shift_matrix_action.
  Qed.

  (** Validity: exactly the partial points of length [b] and offsets from 1 to [2^b - 1]. *)
  Theorem shift_new_correct b o v (r : list F) :
    if (length r =? b)%nat && (0 <? o)%nat && (o <? 2 ^ b)%nat
    then shift_new b o v r = Ok (mkShift b o v r) else shift_new b o v r = Err.
  Proof.
    unfold shift_new, valid_shift_args. destruct (Nat.eqb_spec (length r) b); cbn [negb andb]; auto.
    destruct (Nat.eqb_spec o 0), (Nat.ltb_spec 0 o), (Nat.leb_spec (2 ^ b) o), (Nat.ltb_spec o (2 ^ b));
      cbn [negb andb orb]; auto; lia.
  Qed.

  Lemma valid_left b o v (r : list F) : shift_new b o v r = Ok (mkShift b o v r) ->
    length r = b /\ (0 < o < 2 ^ b)%nat /\
    valid_shift_args b o r = true /\ valid_shift_args b (get_left_shift_offset b o) r = true.
  Proof.
    intros H. pose proof (shift_new_correct b o v r) as C. rewrite H in C.
    destruct (Nat.eqb_spec (length r) b) as [L|L], (Nat.ltb_spec 0 o), (Nat.ltb_spec o (2 ^ b)); cbn [andb] in C; try discriminate.
    split; auto. split; auto. unfold valid_shift_args, get_left_shift_offset. rewrite L, Nat.eqb_refl. cbn [negb].
    rewrite !(proj2 (Nat.eqb_neq _ _)) by lia. rewrite !(proj2 (Nat.leb_gt _ _)) by lia. auto.
  Qed.

  (** The combination of running indicators the three variants use. *)
  Lemma variant_table v b o r x : length r = b -> (0 < o < 2 ^ b)%nat -> (x < 2 ^ b)%nat ->
    shift_table v b o r x =
      match v with
      | CircularLeft => tp o r b x + tpp o r b x
      | LogicalLeft => tp o r b x
      | LogicalRight => tpp (get_left_shift_offset b o) r b x
      end.
  Proof.
    intros Lr Ho Hx. rewrite shift_table_closed by (auto; lia). destruct v.
    - destruct (final_tp o r b x Lr ltac:(lia)) as [-> ->]. destruct (Nat.ltb_spec (x + o) (2 ^ b)) as [H|H].
      + rewrite Nat.mod_small by auto. ring.
      + replace ((x + o) mod 2 ^ b)%nat with (x + o - 2 ^ b)%nat; [ring|].
        apply (Nat.mod_unique _ _ 1); lia.
    - now destruct (final_tp o r b x Lr ltac:(lia)) as [-> _].
    - unfold get_left_shift_offset. destruct (final_tp (2 ^ b - o) r b x Lr ltac:(lia)) as [_ ->].
      destruct (Nat.leb_spec o x), (Nat.ltb_spec (x + (2 ^ b - o)) (2 ^ b)); try lia; auto. f_equal. lia.
  Qed.

  (** Evaluation of the partially evaluated indicator at [X = q] is its multilinear extension in both
      arguments, for every block size, offset, variant and pair of points. *)
  Theorem shift_evaluate_correct b o v (r : list F) s : shift_new b o v r = Ok s ->
    evaluates_to F (mkMv b (shift_evaluate s)) b (shift_table v b o r).
  Proof.
    intros H. assert (s = mkShift b o v r).
    { pose proof (shift_new_correct b o v r) as C. rewrite H in C. destruct (_ && _)%bool in C; congruence. }
    subst s. destruct (valid_left b o v r H) as (Lr & Ho & V1 & V2). split; auto. intros q. cbn [mv_eval].
    unfold shift_evaluate, evaluate_shift_ind_help. cbn [sh_block sh_offset sh_variant sh_r].
    destruct (Nat.eqb_spec (length q) b) as [E|E]; cbn [negb]; auto.
    assert (FQ : firstn b q = q) by (rewrite <- E; apply firstn_all).
    assert (M : forall f g : nat -> F, (forall x, (x < 2 ^ b)%nat -> f x = g x) -> mle f q = mle g q).
    { intros f g Hfg. apply mle_ext. now rewrite E. }
    destruct v; rewrite ?V1, ?V2; cbn [negb rbind]; rewrite help_loop_spec by lia; rewrite FQ; f_equal.
    - symmetry. transitivity (mle (fun x => 1 * tp o r b x + 1 * tpp o r b x) q).
      + apply M. intros x Hx. rewrite (variant_table CircularLeft) by auto. ring.
      + rewrite mle_lin. ring.
    - symmetry. apply M. intros x Hx. now rewrite (variant_table LogicalLeft) by auto.
    - symmetry. apply M. intros x Hx. now rewrite (variant_table LogicalRight) by auto.
  Qed.

  Lemma concat_nth (ls : list (list F)) w : (forall i p, nth_error ls i = Some p -> length p = w) ->
    length (concat ls) = (length ls * w)%nat /\
    forall i l p, nth_error ls i = Some p -> (l < w)%nat -> nth (i * w + l) (concat ls) 0 = nth l p 0.
  Proof.
    induction ls as [|a ls IH]; intros H; cbn [concat length].
    - split; auto. intros [|i] l p E; discriminate.
    - destruct IH as [I1 I2]. { intros i p E. apply (H (S i) p E). }
      pose proof (H 0%nat a eq_refl) as La. rewrite app_length, La, I1. split; [lia|].
      intros [|i] l p E Hl; cbn [nth_error] in E.
      + injection E as <-. cbn [Nat.mul Nat.add]. rewrite app_nth1; auto. lia.
      + rewrite app_nth2 by (rewrite La; cbn [Nat.mul]; lia). rewrite La.
        replace (S i * w + l - w)%nat with (i * w + l)%nat by (cbn [Nat.mul]; lia). now apply I2.
  Qed.

  (** The tabulation of the indicator, for every packing width. *)
  Theorem shift_extension_correct lw b o v (r : list F) s : shift_new b o v r = Ok s ->
    tabulates F lw b (shift_table v b o r) (shift_extension lw s).
  Proof.
    intros H. assert (s = mkShift b o v r).
    { pose proof (shift_new_correct b o v r) as C. rewrite H in C. destruct (_ && _)%bool in C; congruence. }
    subst s. destruct (valid_left b o v r H) as (Lr & Ho & V1 & V2).
    pose proof (pow2_gt0 lw) as HW. set (n := (2 ^ (b - lw))%nat).
    assert (FIN : forall ls (f : nat -> F), length ls = n ->
      (forall i, (i < n)%nat -> exists p, nth_error ls i = Some p /\ length p = (2 ^ lw)%nat /\
         forall l, (l < 2 ^ lw)%nat -> (i * 2 ^ lw + l < 2 ^ b)%nat -> nth l p 0 = f (i * 2 ^ lw + l)%nat) ->
      (forall x, (x < 2 ^ b)%nat -> f x = shift_table v b o r x) ->
      tabulates F lw b (shift_table v b o r) (me_new lw b (concat ls))).
    { intros ls f L1 Hp Hf. destruct (concat_nth ls (2 ^ lw)) as [LC NC].
      { intros i p E. assert (i < n)%nat by (rewrite <- L1; apply nth_error_Some; congruence).
        destruct (Hp i) as (p' & E' & Lp & _); auto. congruence. }
      rewrite L1 in LC. pose proof (me_new_correct F lw b _ _ LC) as M. fold n in M. rewrite Nat.eqb_refl in M. destruct M as [-> Hw].
      eexists. split; [reflexivity|]. split; auto. split; auto. intros x Hx. unfold table. cbn [me_evals].
      pose proof (Nat.div_mod x (2 ^ lw) ltac:(lia)) as DM. pose proof (Nat.mod_upper_bound x (2 ^ lw) ltac:(lia)) as MB.
      assert (x / 2 ^ lw < n)%nat.
      { apply Nat.div_lt_upper_bound; [lia|]. rewrite Nat.mul_comm. unfold n. rewrite pow_sub_mul.
        apply Nat.lt_le_trans with (1 := Hx). apply Nat.pow_le_mono_r; lia. }
      destruct (Hp (x / 2 ^ lw)%nat) as (p & Ep & Lp & Vp); auto.
      replace x with (x / 2 ^ lw * 2 ^ lw + x mod 2 ^ lw)%nat at 1 by lia. rewrite (NC _ _ p Ep MB), Vp by lia.
      rewrite <- Hf by auto. f_equal. lia. }
    unfold shift_extension. cbn [sh_block sh_offset sh_variant sh_r]. destruct v.
    - destruct (hypercube_ok o r lw b Lr V1) as (ps & pps & -> & L1 & L2 & V). cbn [rbind]. fold n in L1, L2, V.
      apply (FIN _ (fun x => tp o r b x + tpp o r b x)).
      + rewrite map_length, combine_length. lia.
      + intros i Hi. destruct (V i Hi) as (p & pp & E1 & E2 & Lp & Lpp & W).
        exists (lanes lw (fun l => nth l p 0 + nth l pp 0)). split.
        * rewrite nth_error_map.
          assert (EC : nth_error (combine ps pps) i = Some (p, pp)).
          { clear - E1 E2. revert pps i E1 E2. induction ps; intros [|b pps] [|i] E1 E2; cbn in *; try discriminate.
            - congruence. - now apply IHps. }
          rewrite EC. reflexivity.
        * split; [apply lanes_length|]. intros l Hl Hx. rewrite lanes_nth by auto. destruct (W l Hl Hx) as [-> ->]. reflexivity.
      + intros x Hx. now rewrite (variant_table CircularLeft) by auto.
    - destruct (hypercube_ok o r lw b Lr V1) as (ps & pps & -> & L1 & L2 & V). cbn [rbind fst]. fold n in L1, L2, V.
      apply (FIN _ (tp o r b)); auto.
      + intros i Hi. destruct (V i Hi) as (p & pp & E1 & E2 & Lp & Lpp & W). exists p. split; auto. split; auto.
        intros l Hl Hx. apply (W l Hl Hx).
      + intros x Hx. now rewrite (variant_table LogicalLeft) by auto.
    - destruct (hypercube_ok (get_left_shift_offset b o) r lw b Lr V2) as (ps & pps & -> & L1 & L2 & V). cbn [rbind snd].
      fold n in L1, L2, V. apply (FIN _ (tpp (get_left_shift_offset b o) r b)); auto.
      + intros i Hi. destruct (V i Hi) as (p & pp & E1 & E2 & Lp & Lpp & W). exists pp. split; auto. split; auto.
        intros l Hl Hx. apply (W l Hl Hx).
      + intros x Hx. now rewrite (variant_table LogicalRight) by auto.
  Qed.

  (** At hypercube points [r] and [q] the value is the matrix entry. *)
  Theorem shift_evaluate_cube b o v (r : list F) s x y : shift_new b o v r = Ok s -> r = vertex b y ->
    (x < 2 ^ b)%nat -> (y < 2 ^ b)%nat ->
    shift_evaluate s (vertex b x) = Ok (if shifted_pair v b o x y then 1 else 0).
  Proof.
    intros H -> Hx Hy. destruct (shift_evaluate_correct b o v _ s H) as [_ E]. cbn [mv_eval] in E.
    rewrite E, vertex_length, Nat.eqb_refl, mle_on_cube by auto. unfold shift_table. now rewrite mle_on_cube.
  Qed.
End Props.

(** * Examples *)
Lemma X16_char2 : char2 X16.
Proof. vm_compute. reflexivity. Qed.

Example shift_ex : exists s, shift_new 3 5 CircularLeft (els [7; 2; 11]%N) = Ok s /\
  shift_evaluate s (els [1; 4; 9]%N) = Ok (mle (shift_table X16 CircularLeft 3 5 (els [7; 2; 11]%N)) (els [1; 4; 9]%N)).
Proof.
  eexists. split; [reflexivity|].
  apply (proj2 (shift_evaluate_correct X16 X16_char2 3 5 CircularLeft (els [7; 2; 11]%N) _ eq_refl)).
Qed.

(** Right shift by 1 in blocks of 4, partially evaluated at [y = 2]: row 3 takes the value of row 2. *)
Example shift_extension_ex :
  match shift_new 2 1 LogicalRight (vertex (F := X16) 2 2) with
  | Ok s => match shift_extension 1 s with Ok m => map bits (me_evals m) = [0; 0; 0; 1]%N | _ => False end
  | _ => False
  end.
Proof. vm_compute. reflexivity. Qed.
