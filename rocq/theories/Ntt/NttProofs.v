(** The rounds of the transform as functions on the scalars of the data. *)
Require Import Coq.setoid_ring.Ring Coq.Arith.Arith Coq.Lists.List Coq.Bool.Bool Lia.
From Verif Require Import Base.Fld Base.Lists Base.Sums Base.NatBits Ntt.NttSpec Ntt.SubspaceTheory Ntt.TwiddleModel
  Ntt.TwiddleProofs Ntt.NttModel.
Import ListNotations.

Lemma ofold_ext {A B} (f g : A -> B -> option A) l : forall a,
  (forall a b, In b l -> f a b = g a b) -> ofold f l a = ofold g l a.
Proof.
  induction l as [|b l IH]; intros a H; [reflexivity|]. cbn. rewrite H by now left.
  destruct (g a b); auto. apply IH. intros. apply H. now right.
Qed.

Lemma nth_upd_eq {A} (l : list A) i v d : i < length l -> nth i (upd l i v) d = v.
Proof. intros H. rewrite upd_nth, Nat.eqb_refl, (proj2 (Nat.ltb_lt _ _) H). reflexivity. Qed.

Lemma nth_upd_ne {A} (l : list A) i v j d : j <> i -> nth j (upd l i v) d = nth j l d.
Proof. intros H. now rewrite upd_nth, (proj2 (Nat.eqb_neq _ _) H). Qed.

Section Proofs.
  Variable F : field.
  Local Open Scope fld_scope.
  Add Ring Fring : (f_ring F).

  Section Width.
  Variable lw : nat.
  Let wd := (2 ^ lw)%nat.

  (** Scalar [s] of the data, in natural order. *)
  Definition sc (D : list (list F)) (s : nat) : F := nth (s mod 2 ^ lw) (nth (s / 2 ^ lw) D []) 0.
  Definition wfd (D : list (list F)) : Prop := forall p, In p D -> length p = wd.

  Lemma sc_at D m lane : (lane < 2 ^ lw)%nat -> sc D (m * 2 ^ lw + lane) = nth lane (nth m D []) 0.
  Proof. intros L. unfold sc. now rewrite mix_div, mix_mod by auto. Qed.

  Lemma wfd_nth D m : wfd D -> (m < length D)%nat -> length (nth m D []) = wd.
  Proof. intros H L. apply H. now apply nth_In. Qed.

  Lemma wfd_upd D i p : wfd D -> length p = wd -> wfd (upd D i p).
  Proof.
    intros H L q Hq. apply (In_nth _ _ []) in Hq. destruct Hq as [k [Hk E]]. rewrite upd_length in Hk.
    destruct (Nat.eq_dec k i) as [->|N].
    - rewrite nth_upd_eq in E by auto. congruence.
    - rewrite nth_upd_ne in E by auto. subst q. apply H. now apply nth_In.
  Qed.

  (** ** A loop over disjoint pairs of packed elements *)
  Lemma bf_fold {I} (qf lf : I -> nat) P (g : I -> list F -> list F -> option (list F * list F)) items :
    forall D,
    NoDup items ->
    (forall it, In it items -> (lf it < 2 ^ P)%nat /\ (qf it * 2 ^ S P + 2 ^ P + lf it < length D)%nat) ->
    (forall it it', In it items -> In it' items -> qf it = qf it' -> lf it = lf it' -> it = it') ->
    (forall it a b, In it items -> length a = wd -> length b = wd ->
       exists a' b', g it a b = Some (a', b') /\ length a' = wd /\ length b' = wd) ->
    wfd D ->
    exists D', ofold (fun D it => update2 D (qf it * 2 ^ S P + lf it) (qf it * 2 ^ S P + 2 ^ P + lf it) (g it))
                     items D = Some D' /\
      length D' = length D /\ wfd D' /\
      (forall it, In it items -> exists a' b',
         g it (nth (qf it * 2 ^ S P + lf it) D []) (nth (qf it * 2 ^ S P + 2 ^ P + lf it) D []) = Some (a', b') /\
         nth (qf it * 2 ^ S P + lf it) D' [] = a' /\ nth (qf it * 2 ^ S P + 2 ^ P + lf it) D' [] = b') /\
      (forall m, (forall it, In it items -> m <> (qf it * 2 ^ S P + lf it)%nat /\
                                            m <> (qf it * 2 ^ S P + 2 ^ P + lf it)%nat) ->
         nth m D' [] = nth m D []).
  Proof.
    induction items as [|it items IH]; intros D ND HB HI HG WD.
    { exists D. cbn. repeat split; auto. intros it []. }
    inversion ND as [|? ? NI ND']; subst.
    set (i0 := fun it => (qf it * 2 ^ S P + lf it)%nat). set (i1 := fun it => (qf it * 2 ^ S P + 2 ^ P + lf it)%nat).
    assert (PW := pow2_S P). assert (PP := pow2_pos P).
    destruct (HB it (or_introl eq_refl)) as [L1 L2].
    assert (B0 : (i0 it < length D)%nat) by (unfold i0; lia).
    assert (B1 : (i1 it < length D)%nat) by (unfold i1; lia).
    assert (NE : i0 it <> i1 it) by (unfold i0, i1; lia).
    destruct (HG it (nth (i0 it) D []) (nth (i1 it) D [])) as [a' [b' [EG [LA LB]]]];
      [now left|now apply wfd_nth|now apply wfd_nth|].
    assert (SEP : forall it', In it' items -> i0 it' <> i0 it /\ i0 it' <> i1 it /\ i1 it' <> i0 it /\ i1 it' <> i1 it).
    { intros it' Hi. destruct (HB it' (or_intror Hi)) as [L1' _].
      assert (DIF : i0 it' <> i0 it).
      { unfold i0. intros E. assert (it' = it); [|subst; contradiction].
        apply HI; [now right|now left| |].
        - apply (f_equal (fun x => x / 2 ^ S P)%nat) in E. rewrite !mix_div in E by lia. exact E.
        - apply (f_equal (fun x => x mod 2 ^ S P)%nat) in E. rewrite !mix_mod in E by lia. exact E. }
      unfold i0, i1 in *. split; [exact DIF|]. split; [|split].
      - intros E. pose proof (bit_clear (qf it') P (lf it') L1') as Q. rewrite E, bit_set in Q by auto. discriminate.
      - intros E. pose proof (bit_set (qf it') P (lf it') L1') as Q. rewrite E, bit_clear in Q by auto. discriminate.
      - lia. }
    destruct (IH (upd (upd D (i0 it) a') (i1 it) b')) as [D' [E [LD [WD' [HP HO]]]]]; auto.
    - intros it' Hi. rewrite !upd_length. apply HB. now right.
    - intros. apply HI; auto; now right.
    - intros. apply HG; auto; now right.
    - apply wfd_upd; auto. now apply wfd_upd.
    - rewrite !upd_length in LD. exists D'. cbn [ofold]. unfold update2 at 1.
      change (qf it * 2 ^ S P + lf it)%nat with (i0 it); change (qf it * 2 ^ S P + 2 ^ P + lf it)%nat with (i1 it). rewrite (nth_error_nth_eq D (i0 it) []), (nth_error_nth_eq D (i1 it) []) by auto.
      cbn [obind]. rewrite EG. cbn [obind fst snd]. split; [exact E|]. split; [exact LD|]. split; [exact WD'|].
      assert (U0 : nth (i0 it) (upd (upd D (i0 it) a') (i1 it) b') [] = a').
      { now rewrite nth_upd_ne, nth_upd_eq by auto. }
      assert (U1 : nth (i1 it) (upd (upd D (i0 it) a') (i1 it) b') [] = b').
      { now rewrite nth_upd_eq by (now rewrite upd_length). }
      assert (UO : forall m, m <> i0 it -> m <> i1 it -> nth m (upd (upd D (i0 it) a') (i1 it) b') [] = nth m D []).
      { intros m M0 M1. now rewrite !nth_upd_ne by auto. }
      split.
      + intros it' [<-|Hi].
        * exists a', b'. split; [exact EG|]. change (qf it * 2 ^ S P + lf it)%nat with (i0 it); change (qf it * 2 ^ S P + 2 ^ P + lf it)%nat with (i1 it). split.
          -- rewrite HO; [exact U0|]. intros it' Hi. destruct (SEP it' Hi) as [S1 [S2 [S3 S4]]]. change (qf it' * 2 ^ S P + lf it')%nat with (i0 it'); change (qf it' * 2 ^ S P + 2 ^ P + lf it')%nat with (i1 it'). auto.
          -- rewrite HO; [exact U1|]. intros it' Hi. destruct (SEP it' Hi) as [S1 [S2 [S3 S4]]]. change (qf it' * 2 ^ S P + lf it')%nat with (i0 it'); change (qf it' * 2 ^ S P + 2 ^ P + lf it')%nat with (i1 it'). auto.
        * destruct (HP it' Hi) as [a2 [b2 [E2 [X2 Y2]]]]. exists a2, b2. change (qf it' * 2 ^ S P + lf it')%nat with (i0 it') in *; change (qf it' * 2 ^ S P + 2 ^ P + lf it')%nat with (i1 it') in *.
          destruct (SEP it' Hi) as [S1 [S2 [S3 S4]]]. rewrite !UO in E2 by auto. auto.
      + intros m Hm. destruct (Hm it (or_introl eq_refl)) as [M0 M1]. change (qf it * 2 ^ S P + lf it)%nat with (i0 it) in *; change (qf it * 2 ^ S P + 2 ^ P + lf it)%nat with (i1 it) in *.
        rewrite HO; [now apply UO|]. intros it' Hi. apply Hm. now right.
  Qed.

  (** ** A round on the scalars *)
  Definition Rnd (bf : F -> F -> F -> F * F) (p K : nat) (T : nat -> F) (g : nat -> F) (s : nat) : F :=
    let q := (s / 2 ^ S p)%nat in
    let r := (s mod 2 ^ p)%nat in
    let uv := bf (T (q mod K)) (g (q * 2 ^ S p + r)%nat) (g (q * 2 ^ S p + 2 ^ p + r)%nat) in
    if Nat.testbit s p then snd uv else fst uv.

  Lemma Rnd_ext bf p K T g g' n s : (p < n)%nat -> (s < 2 ^ n)%nat ->
    (forall s, (s < 2 ^ n)%nat -> g s = g' s) -> Rnd bf p K T g s = Rnd bf p K T g' s.
  Proof.
    intros Lp Ls H. unfold Rnd. pose proof (mod_lt s p) as M. pose proof (pow2_S p) as PW.
    assert (Q : (s / 2 ^ S p < 2 ^ (n - S p))%nat) by (apply div_lt; now replace (S p + (n - S p))%nat with n by lia).
    assert (B : (s / 2 ^ S p * 2 ^ S p + 2 ^ p + s mod 2 ^ p < 2 ^ n)%nat).
    { replace n with (S p + (n - S p))%nat by lia. rewrite <- Nat.add_assoc. apply mix_lt; auto. lia. }
    rewrite !H by lia. reflexivity.
  Qed.

  (** A packed butterfly is a scalar butterfly on every lane. *)
  Definition lanewise (bf : list F -> list F -> list F -> option (list F * list F)) (sb : F -> F -> F -> F * F) : Prop :=
    forall t a b, length t = wd -> length a = wd -> length b = wd ->
      exists a' b', bf t a b = Some (a', b') /\ length a' = wd /\ length b' = wd /\
        forall x, (x < wd)%nat -> nth x a' 0 = fst (sb (nth x t 0) (nth x a 0) (nth x b 0)) /\
                                  nth x b' 0 = snd (sb (nth x t 0) (nth x a 0) (nth x b 0)).

  Definition fwd_bf (t u v : F) : F * F := (u + v * t, v + (u + v * t)).
  Definition inv_bf (t u v : F) : F * F := (u + (v + u) * t, v + u).

  Lemma zip_with_spec (f : F -> F -> F) a b n : length a = n -> length b = n ->
    length (zip_with f a b) = n /\ forall x, (x < n)%nat -> nth x (zip_with f a b) 0 = f (nth x a 0) (nth x b 0).
  Proof.
    intros LA LB. unfold zip_with. assert (LC : length (combine a b) = n) by (rewrite combine_length; lia).
    split; [now rewrite map_length|]. intros x Hx. rewrite (nth_map_lt _ _ _ _ (0, 0)) by lia.
    rewrite combine_nth by lia. reflexivity.
  Qed.

  Lemma lanewise_fwd : lanewise butterfly fwd_bf.
  Proof.
    intros t a b LT LA LB. unfold butterfly. cbv zeta. destruct (zip_with_spec fmul b t wd LB LT) as [L1 N1].
    fold (pk_mul b t) in L1, N1. destruct (zip_with_spec fadd a (pk_mul b t) wd LA L1) as [L2 N2].
    fold (pk_add a (pk_mul b t)) in L2, N2.
    destruct (zip_with_spec fadd b (pk_add a (pk_mul b t)) wd LB L2) as [L3 N3].
    fold (pk_add b (pk_add a (pk_mul b t))) in L3, N3.
    eexists _, _. split; [reflexivity|]. split; [exact L2|]. split; [exact L3|]. intros x Hx. unfold fwd_bf. cbn [fst snd].
    now rewrite N3, N2, N1 by auto.
  Qed.

  Lemma lanewise_inv : lanewise inv_butterfly inv_bf.
  Proof.
    intros t a b LT LA LB. unfold inv_butterfly. cbv zeta. destruct (zip_with_spec fadd b a wd LB LA) as [L1 N1].
    fold (pk_add b a) in L1, N1. destruct (zip_with_spec fmul (pk_add b a) t wd L1 LT) as [L2 N2].
    fold (pk_mul (pk_add b a) t) in L2, N2.
    destruct (zip_with_spec fadd a (pk_mul (pk_add b a) t) wd LA L2) as [L3 N3].
    fold (pk_add a (pk_mul (pk_add b a) t)) in L3, N3.
    eexists _, _. split; [reflexivity|]. split; [exact L3|]. split; [exact L1|]. intros x Hx. unfold inv_bf. cbn [fst snd].
    now rewrite N3, N2, N1 by auto.
  Qed.

  (** ** Rounds above the cutoff *)
  Lemma big_round_spec bf sb s_evals t lx ly lz coset i D (T : nat -> F) :
    lanewise bf sb ->
    (lw <= lx + i)%nat -> (i < ly)%nat ->
    nth_error s_evals i = Some t ->
    (forall k, (k < 2 ^ (ly - 1 - i))%nat -> tw_get t (coset * 2 ^ (ly - 1 - i) + k) = Some (T k)) ->
    wfd D -> length D = (2 ^ (lx + ly + lz - lw))%nat ->
    exists D', big_round bf lw s_evals (mkShape lx ly lz) coset D i = Some D' /\
      length D' = length D /\ wfd D' /\
      forall s, (s < 2 ^ (lx + ly + lz))%nat ->
        sc D' s = Rnd sb (lx + i) (2 ^ (ly - 1 - i)) T (sc D) s.
  Proof.
    intros HL Lw Li ET HT WD LD. unfold big_round. rewrite ET. cbn [obind log_x log_y log_z].
    unfold underflows. rewrite !(proj2 (Nat.ltb_ge _ _)) by lia. cbn [orb]. cbv zeta.
    set (P := (lx + i - lw)%nat). set (e := (ly - 1 - i)%nat) in *.
    assert (HN : (lx + ly + lz - lw = S P + (e + lz))%nat) by (unfold P, e; lia).
    set (items := list_prod (list_prod (seq 0 (2 ^ lz)) (seq 0 (2 ^ e))) (seq 0 (2 ^ (i + lx - lw)))).
    assert (IT : forall j k l, In (j, k, l) items <-> (j < 2 ^ lz /\ k < 2 ^ e /\ l < 2 ^ P)%nat).
    { intros j k l. unfold items. rewrite !in_prod_iff, !in_seq. replace (i + lx - lw)%nat with P by (unfold P; lia). lia. }
    set (qf := fun it : nat * nat * nat => let '(j, k, l) := it in (j * 2 ^ e + k)%nat).
    set (lf := fun it : nat * nat * nat => let '(j, k, l) := it in l).
    set (g := fun it : nat * nat * nat => let '(j, k, l) := it in bf (pk_broadcast lw (T k))).
    assert (LBR : forall x : F, length (pk_broadcast lw x) = wd) by (intros; apply repeat_length).
    rewrite (ofold_ext _ (fun D it => update2 D (qf it * 2 ^ S P + lf it) (qf it * 2 ^ S P + 2 ^ P + lf it) (g it))).
    2:{ intros D0 [[j k] l] Hin. apply IT in Hin. destruct Hin as [Hj [Hk Hl]]. cbn [qf lf g].
        rewrite shl_mul, lor_shiftl by auto. rewrite HT by auto. cbn [obind].
        rewrite !shl_mul. rewrite Nat.mul_1_l.
        replace (lx + ly - lw)%nat with (S P + e)%nat by (unfold P, e; lia).
        replace (lx + i + 1 - lw)%nat with (S P) by (unfold P; lia).
        replace (j * 2 ^ (S P + e))%nat with (j * 2 ^ e * 2 ^ S P)%nat by (rewrite Nat.pow_add_r; lia).
        assert (KS : (k * 2 ^ S P < 2 ^ (S P + e))%nat).
        { rewrite Nat.pow_add_r. pose proof (pow2_pos (S P)). nia. }
        replace (j * 2 ^ e * 2 ^ S P)%nat with (j * 2 ^ (S P + e))%nat by (rewrite Nat.pow_add_r; lia).
        rewrite (lor_shiftl j (S P + e)) by auto.
        replace (j * 2 ^ (S P + e) + k * 2 ^ S P)%nat with ((j * 2 ^ e + k) * 2 ^ S P)%nat by (rewrite Nat.pow_add_r; lia).
        assert (LS : (l < 2 ^ S P)%nat) by (rewrite pow2_S; lia).
        rewrite lor_shiftl by auto. rewrite lor_bit by auto. reflexivity. }
    destruct (bf_fold qf lf P g items D) as [D' [E [LD' [WD' [HP _]]]]]; auto.
    - unfold items. repeat apply NoDup_list_prod; apply seq_NoDup.
    - intros [[j k] l] Hin. apply IT in Hin. destruct Hin as [Hj [Hk Hl]]. cbn [lf qf]. split; auto.
      rewrite LD, HN. rewrite <- Nat.add_assoc. apply mix_lt; [|rewrite pow2_S; lia]. now apply mix_lt.
    - intros [[j k] l] [[j' k'] l'] H1 H2 Q Q2. apply IT in H1, H2. cbn [lf qf] in *.
      assert (j = j').
      { apply (f_equal (fun x => x / 2 ^ e)%nat) in Q. rewrite !mix_div in Q by tauto. exact Q. }
      subst. f_equal. f_equal. lia.
    - intros [[j k] l] a b Hin La Lb. cbn [g]. destruct (HL (pk_broadcast lw (T k)) a b) as [a' [b' [E [A1 [A2 _]]]]]; auto.
      exists a', b'. auto.
    - exists D'. split; [exact E|]. split; [exact LD'|]. split; [exact WD'|].
      intros s Hs. set (m := (s / 2 ^ lw)%nat). set (lane := (s mod 2 ^ lw)%nat).
      assert (LL : (lane < 2 ^ lw)%nat) by apply mod_lt.
      assert (ES : s = (m * 2 ^ lw + lane)%nat) by apply mix_dm.
      assert (LM : (m < 2 ^ (S P + (e + lz)))%nat).
      { unfold m. apply div_lt. rewrite <- HN. now replace (lw + (lx + ly + lz - lw))%nat with (lx + ly + lz)%nat by (unfold P in *; lia). }
      set (q := (m / 2 ^ S P)%nat). set (l := (m mod 2 ^ P)%nat).
      assert (Lq : (q < 2 ^ (e + lz))%nat) by (unfold q; now apply div_lt).
      assert (Ll : (l < 2 ^ P)%nat) by apply mod_lt.
      assert (IN : In ((q / 2 ^ e)%nat, (q mod 2 ^ e)%nat, l) items).
      { apply IT. split; [now apply div_lt|]. split; [apply mod_lt|auto]. }
      destruct (HP _ IN) as [a' [b' [EG [NA NB]]]]. cbn [qf lf g] in EG, NA, NB.
      rewrite <- mix_dm in EG, NA, NB.
      assert (BD : (q * 2 ^ S P + 2 ^ P + l < length D)%nat).
      { rewrite LD, HN, <- Nat.add_assoc. apply mix_lt; auto. rewrite pow2_S. lia. }
      destruct (HL (pk_broadcast lw (T (q mod 2 ^ e))) (nth (q * 2 ^ S P + l) D []) (nth (q * 2 ^ S P + 2 ^ P + l) D []))
        as [a2 [b2 [E2 [_ [_ HX]]]]]; [apply LBR|apply wfd_nth; auto; lia|apply wfd_nth; auto|].
      rewrite EG in E2. inversion E2; subst a2 b2. clear E2. destruct (HX lane LL) as [HA HB].
      unfold pk_broadcast in HA, HB. rewrite nth_repeat0 in HA, HB by auto.
      unfold Rnd.
      assert (QS : (s / 2 ^ S (lx + i) = q)%nat).
      { unfold q, m. rewrite div_div. now replace (lw + S P)%nat with (S (lx + i)) by (unfold P; lia). }
      assert (BS : Nat.testbit s (lx + i) = Nat.testbit m P).
      { unfold m. rewrite Nat.div_pow2_bits. now replace (P + lw)%nat with (lx + i)%nat by (unfold P; lia). }
      assert (RS : (s mod 2 ^ (lx + i) = l * 2 ^ lw + lane)%nat).
      { replace (lx + i)%nat with (lw + P)%nat by (unfold P; lia). now rewrite mod_split. }
      rewrite QS, BS, RS.
      replace (q * 2 ^ S (lx + i) + (l * 2 ^ lw + lane))%nat with ((q * 2 ^ S P + l) * 2 ^ lw + lane)%nat.
      2:{ replace (S (lx + i)) with (S P + lw)%nat by (unfold P; lia). rewrite Nat.pow_add_r. lia. }
      replace (q * 2 ^ S (lx + i) + 2 ^ (lx + i) + (l * 2 ^ lw + lane))%nat with ((q * 2 ^ S P + 2 ^ P + l) * 2 ^ lw + lane)%nat.
      2:{ replace (S (lx + i)) with (S P + lw)%nat by (unfold P; lia). replace (lx + i)%nat with (P + lw)%nat by (unfold P; lia).
          rewrite !Nat.pow_add_r. lia. }
      rewrite !sc_at by auto. rewrite <- HA, <- HB, <- NA, <- NB. rewrite ES at 1. rewrite sc_at by auto.
      pose proof (split_bit m P) as SB. fold q l in SB. destruct (Nat.testbit m P); rewrite SB at 1; do 2 f_equal; lia.
  Qed.

  (** ** Rounds below the cutoff *)
  Lemma ofold_writes {B} (f : list F -> B -> option (list F)) (S : B -> nat -> Prop) (val : nat -> F) l :
    (forall a b, In b l -> length a = wd -> exists a', f a b = Some a' /\ length a' = wd /\
       (forall x, nth x a 0 = val x -> nth x a' 0 = val x) /\ (forall x, S b x -> nth x a' 0 = val x)) ->
    forall a, length a = wd -> exists a', ofold f l a = Some a' /\ length a' = wd /\
       (forall x, nth x a 0 = val x -> nth x a' 0 = val x) /\
       (forall b x, In b l -> S b x -> nth x a' 0 = val x).
  Proof.
    induction l as [|b l IH]; intros H a La.
    - exists a. cbn. repeat split; auto. intros b x [].
    - destruct (H a b) as [a1 [E1 [L1 [K1 N1]]]]; [now left|auto|].
      destruct (IH (fun a b Hb => H a b (or_intror Hb)) a1 L1) as [a2 [E2 [L2 [K2 N2]]]].
      exists a2. cbn [ofold]. rewrite E1. split; [exact E2|]. split; [exact L2|]. split; [auto|].
      intros b' x [<-|Hb] Hx; eauto.
  Qed.

  Lemma set_lane_spec (a : list F) x v : length a = wd -> (x < wd)%nat ->
    set_lane a x v = Some (upd a x v) /\ length (upd a x v) = wd.
  Proof.
    intros L H. unfold set_lane. rewrite (proj2 (Nat.ltb_lt _ _)) by lia. now rewrite upd_length.
  Qed.

  Definition T0 (b : nat -> F) (n k : nat) : F := bsum b n k.

  Lemma T0_add b n w A B : (w <= n)%nat -> (B < 2 ^ w)%nat -> T0 b n (A * 2 ^ w + B) = T0 b n (A * 2 ^ w) + T0 b n B.
  Proof.
    intros L LB. unfold T0. pose proof (pow2_pos w). replace n with (w + (n - w))%nat by lia.
    rewrite bsum_split by auto. rewrite <- (Nat.add_0_r (A * 2 ^ w)) at 1. rewrite bsum_split by auto.
    change B with (0 * 2 ^ w + B)%nat at 2. rewrite bsum_split by auto. rewrite !bsum_0. ring.
  Qed.

  Lemma tw_arith lx ly lz i n : (lx + i < lw)%nat -> (i < ly)%nat -> (ly - 1 - i <= n)%nat ->
    let pl := Nat.min (lx + ly + lz) lw in
    let lbc := (pl - (i + lx + 1))%nat in
    let plz := (pl - (lx + ly))%nat in
    let st := Nat.min (lw - lx) (lbc - plz) in
    (underflows pl (plz + lx) || underflows lbc plz || underflows lbc st)%bool = false /\
    (if (lx + ly <=? lw)%nat then (pl - plz - lx =? ly)%nat = true /\ (st = ly - 1 - i)%nat
     else (pl - plz - lx =? ly)%nat = false /\ (st = lw - lx - i - 1)%nat /\ (lbc = st)%nat /\ (st < n)%nat) /\
    (lbc = pl - S (lx + i))%nat /\ (st <= lbc)%nat /\ (st <= n)%nat /\ (S (lx + i) <= pl)%nat.
  Proof.
    intros L1 L2 L3 pl lbc plz st. unfold underflows.
    destruct (le_lt_dec (lx + ly) lw) as [A|A].
    - assert (PL : (pl = lx + ly + plz)%nat) by (unfold plz, pl; lia).
      assert (ST : (lbc = plz + (ly - 1 - i))%nat) by (unfold lbc; lia).
      assert (ST' : (st = ly - 1 - i)%nat) by (unfold st; rewrite ST; rewrite Nat.min_r; lia).
      rewrite (proj2 (Nat.leb_le _ _)) by lia.
      clearbody pl lbc plz st. rewrite !(proj2 (Nat.ltb_ge _ _)) by lia. cbn [orb].
      repeat split; try lia. apply Nat.eqb_eq. lia.
    - assert (PL : (pl = lw)%nat) by (unfold pl; lia).
      assert (PZ : (plz = 0)%nat) by (unfold plz; lia).
      assert (ST : (lbc = lw - lx - i - 1)%nat) by (unfold lbc; lia).
      assert (ST' : (st = lw - lx - i - 1)%nat) by (unfold st; rewrite ST, PZ; rewrite Nat.min_r; lia).
      rewrite (proj2 (Nat.leb_gt _ _)) by lia.
      clearbody pl lbc plz st. rewrite !(proj2 (Nat.ltb_ge _ _)) by lia. cbn [orb].
      repeat split; try lia. apply Nat.eqb_neq. lia.
  Qed.

  Lemma additive_twiddle_spec t n b lx ly lz i :
    (lx + i < lw)%nat -> (i < ly)%nat -> tw_repr t n 0 b -> (ly - 1 - i <= n)%nat ->
    exists tw, additive_twiddle lw t (mkShape lx ly lz) i = Some tw /\ length tw = wd /\
      forall c (e : bool) r, (c < 2 ^ (Nat.min (lx + ly + lz) lw - (lx + i + 1)))%nat -> (r < 2 ^ (lx + i))%nat ->
        nth (c * 2 ^ S (lx + i) + (if e then 2 ^ (lx + i) else 0) + r) tw 0 =
        T0 b n (if (lx + ly <=? lw)%nat then (c mod 2 ^ (ly - 1 - i))%nat
                else ((if e then 2 ^ (lw - lx - i - 1) else 0) + c)%nat).
  Proof.
    intros Lw Li R Ln. unfold additive_twiddle. cbn [log_x log_y log_z]. cbv zeta.
    set (pl := Nat.min (lx + ly + lz) lw).
    set (lbc := (pl - (i + lx + 1))%nat). set (plz := (pl - (lx + ly))%nat).
    set (st := Nat.min (lw - lx) (lbc - plz)).
    set (p := (lx + i)%nat).
    destruct (tw_arith lx ly lz i n Lw Li Ln) as [U [CASE [LBC [SL [STN LE]]]]].
    fold pl in U, CASE, LBC, SL, STN, LE. fold lbc plz in U, CASE, LBC, SL, STN, LE. fold st in U, CASE, SL, STN.
    fold p in LBC, LE. rewrite U. cbv iota. replace (i + lx)%nat with p by (unfold p; lia).
    assert (PLT : (pl <= lw)%nat) by (unfold pl; apply Nat.le_min_r).
    assert (PI : (p + 1 = S p)%nat) by lia.
    clearbody pl plz lbc.
    clear U.
    clearbody st.
    set (caseA := (lx + ly <=? lw)%nat) in *.
    set (arg := fun (c : nat) (e : bool) => if caseA then (c mod 2 ^ (ly - 1 - i))%nat
                else ((if e then 2 ^ (lw - lx - i - 1) else 0) + c)%nat).
    set (val := fun lane : nat => T0 b n (arg (lane / 2 ^ S p)%nat (Nat.testbit lane p))).
    set (S1 := fun (it : nat * nat) (x : nat) => exists (e : bool) r, (r < 2 ^ p)%nat /\
                 x = ((fst it * 2 ^ st + snd it) * 2 ^ S p + (if e then 2 ^ p else 0) + r)%nat).
    assert (LANE : forall c (e : bool) r, (r < 2 ^ p)%nat ->
       val (c * 2 ^ S p + (if e then 2 ^ p else 0) + r)%nat = T0 b n (arg c e)).
    { intros c e r Hr. unfold val. pose proof (pow2_S p). do 2 f_equal.
      - rewrite <- Nat.add_assoc. apply mix_div. destruct e; lia.
      - destruct e; [now apply bit_set|]. rewrite Nat.add_0_r. now apply bit_clear. }
    assert (LT : forall c (e : bool) r, (c < 2 ^ lbc)%nat -> (r < 2 ^ p)%nat ->
       (c * 2 ^ S p + (if e then 2 ^ p else 0) + r < wd)%nat).
    { intros c e r Hc Hr. unfold wd. apply (Nat.lt_le_trans _ (2 ^ (S p + lbc))).
      - rewrite <- Nat.add_assoc. apply mix_lt; auto. rewrite pow2_S. destruct e; lia.
      - apply pow2_le. unfold p in *. lia. }
    match goal with |- context [ofold ?f ?l ?ini] =>
      destruct (ofold_writes f S1 val l) with (a := ini) as [tw [E [L [_ N]]]] end.
    - intros a [i' j] Hin La. apply in_prod_iff in Hin. rewrite !in_seq in Hin. destruct Hin as [[_ Hi'] [_ Hj]].
      cbn [Nat.add] in Hi', Hj.
      assert (CB : (i' * 2 ^ st + j < 2 ^ lbc)%nat).
      { replace lbc with (st + (lbc - st))%nat by lia. now apply mix_lt. }
      assert (PAIR : (if (pl - plz - lx =? ly)%nat then do same <- tw_get t j; Some (same, same)
                      else tw_get_pair t st j) =
                     Some (T0 b n (arg (i' * 2 ^ st + j)%nat false), T0 b n (arg (i' * 2 ^ st + j)%nat true))).
      { unfold arg. destruct caseA.
        - destruct CASE as [C1 C2]. rewrite C1.
          pose proof (pow2_le st n STN). rewrite (tw_get_spec F t n 0 b j R) by lia. cbn [obind].
          rewrite <- C2, mix_mod by auto. unfold T0. do 2 f_equal; ring.
        - destruct CASE as [C1 [C2 [C3 C4]]]. rewrite C1.
          assert (i' = 0)%nat by (rewrite C3, Nat.sub_diag in Hi'; cbn in Hi'; lia). subst i'.
          rewrite (tw_get_pair_spec F t n 0 b st j R) by (unfold p in *; lia).
          rewrite <- C2. cbn [Nat.mul Nat.add]. unfold T0. do 2 f_equal; ring. }
      rewrite PAIR. cbn [obind fst snd].
      set (c := (i' * 2 ^ st + j)%nat) in *.
      assert (I0 : Nat.lor (Nat.shiftl j (p + 1)) (Nat.shiftl i' (p + st + 1)) = (c * 2 ^ S p)%nat).
      { rewrite !shl_mul. rewrite Nat.lor_comm. replace (p + st + 1)%nat with (S p + st)%nat by lia.
        replace (p + 1)%nat with (S p) by lia. rewrite lor_shiftl.
        - rewrite Nat.pow_add_r. unfold c. lia.
        - rewrite Nat.pow_add_r. pose proof (pow2_pos (S p)). nia. }
      rewrite I0. rewrite shl_mul, Nat.mul_1_l.
      assert (I1 : Nat.lor (c * 2 ^ S p) (2 ^ p) = (c * 2 ^ S p + 2 ^ p)%nat)
        by (apply lor_shiftl; apply pow2_lt; lia).
      rewrite I1.
      set (S2 := fun (k x : nat) => exists e : bool, x = (c * 2 ^ S p + (if e then 2 ^ p else 0) + k)%nat).
      match goal with |- context [ofold ?f ?l ?ini] =>
        destruct (ofold_writes f S2 val l) with (a := ini) as [tw [E [L [K N]]]] end; auto.
      + intros a1 k Hk La1. apply in_seq in Hk. cbn [Nat.add] in Hk.
        assert (X0 : Nat.lor (c * 2 ^ S p) k = (c * 2 ^ S p + (if false then 2 ^ p else 0) + k)%nat).
        { rewrite lor_shiftl by (rewrite pow2_S; lia). lia. }
        assert (X1 : Nat.lor (c * 2 ^ S p + 2 ^ p) k = (c * 2 ^ S p + (if true then 2 ^ p else 0) + k)%nat).
        { replace (c * 2 ^ S p + 2 ^ p)%nat with ((2 * c + 1) * 2 ^ p)%nat by (rewrite pow2_S; lia).
          rewrite lor_shiftl by lia. try rewrite pow2_S; lia. }
        rewrite X0, X1.
        assert (B0 := LT c false k CB ltac:(lia)). assert (B1 := LT c true k CB ltac:(lia)). cbv iota in X0, X1, B0, B1.
        destruct (set_lane_spec a1 _ (T0 b n (arg c false)) La1 B0) as [Q1 Q2].
        rewrite Q1. cbn [obind].
        destruct (set_lane_spec _ _ (T0 b n (arg c true)) Q2 B1) as [Q3 Q4].
        rewrite Q3. eexists. split; [reflexivity|]. split; [exact Q4|].
        assert (V0 := LANE c false k ltac:(lia)). assert (V1 := LANE c true k ltac:(lia)).
        assert (KK : forall x (a : list F) v y, val x = v -> nth y a 0 = val y -> nth y (upd a x v) 0 = val y).
        { intros x a0 v y Ev Ey. rewrite upd_nth. destruct (Nat.eqb_spec y x) as [->|]; cbn [andb]; auto.
          destruct (_ <? _)%nat; auto. }
        split; [intros x Hx; apply KK; auto; apply KK; auto|].
        intros x [e ->]. destruct e.
        * rewrite nth_upd_eq by (rewrite Q2; exact B1). auto.
        * rewrite nth_upd_ne by (pose proof (pow2_pos p); lia).
          rewrite nth_upd_eq by (rewrite La1; exact B0). auto.
      + exists tw. split; [exact E|]. split; [exact L|]. split; [exact K|].
        intros x [e [r [Hr ->]]]. cbn [fst snd]. apply (N r); [apply in_seq; lia|]. exists e. reflexivity.
    - apply repeat_length.
    - exists tw. split; [exact E|]. split; [exact L|]. intros c e r Hc Hr.
      fold p in Hc, Hr |- *. transitivity (T0 b n (arg c e)); [|reflexivity]. rewrite <- (LANE c e r Hr).
      assert (Hc' : (c < 2 ^ lbc)%nat) by (rewrite LBC; replace (S p) with (p + 1)%nat by lia; exact Hc).
      apply (N ((c / 2 ^ st)%nat, (c mod 2 ^ st)%nat)).
      + apply in_prod_iff. rewrite !in_seq. split; [split; [lia|]|split; [lia|apply mod_lt]].
        apply div_lt. now replace (st + (lbc - st))%nat with lbc by lia.
      + exists e, r. split; auto. cbn [fst snd]. now rewrite <- mix_dm.
  Qed.

  Lemma interleave_spec p (a b : list F) : (p < lw)%nat -> length a = wd -> length b = wd ->
    exists u v, pk_interleave lw p a b = Some (u, v) /\ length u = wd /\ length v = wd /\
      forall c (e : bool) r, (c < 2 ^ (lw - S p))%nat -> (r < 2 ^ p)%nat ->
        nth (c * 2 ^ S p + (if e then 2 ^ p else 0) + r) u 0 = nth (c * 2 ^ S p + r) (if e then b else a) 0 /\
        nth (c * 2 ^ S p + (if e then 2 ^ p else 0) + r) v 0 = nth (c * 2 ^ S p + 2 ^ p + r) (if e then b else a) 0.
  Proof.
    intros Lp La Lb. unfold pk_interleave. rewrite (proj2 (Nat.ltb_lt _ _)) by auto.
    eexists _, _. split; [reflexivity|]. rewrite !map_length, !seq_length. split; [reflexivity|]. split; [reflexivity|].
    intros c e r Hc Hr.
    assert (LT : (c * 2 ^ S p + (if e then 2 ^ p else 0) + r < 2 ^ lw)%nat).
    { replace lw with (S p + (lw - S p))%nat by lia. rewrite <- Nat.add_assoc. apply mix_lt; auto.
      rewrite pow2_S. destruct e; lia. }
    rewrite !(nth_map_seq) by auto. destruct e.
    - rewrite bit_set by auto. split; f_equal; lia.
    - rewrite Nat.add_0_r, bit_clear by auto. split; f_equal; lia.
  Qed.

  Lemma small_round_spec bf sb s_evals t n b lx ly lz coset i D :
    lanewise bf sb ->
    (lx + i < lw)%nat -> (i < ly)%nat ->
    nth_error s_evals i = Some t -> tw_repr t n 0 b ->
    (ly - 1 - i <= n)%nat -> (coset < 2 ^ (n - (ly - 1 - i)))%nat ->
    wfd D -> length D = (2 ^ (Nat.max (lx + ly + lz) (S lw) - lw))%nat ->
    exists D', small_round bf lw s_evals (mkShape lx ly lz) coset D i = Some D' /\
      length D' = length D /\ wfd D' /\
      forall s, (s < 2 ^ (lx + ly + lz))%nat ->
        sc D' s = Rnd sb (lx + i) (2 ^ (ly - 1 - i)) (fun k => T0 b n (coset * 2 ^ (ly - 1 - i) + k)%nat) (sc D) s.
  Proof.
    intros HL Lw Li ET R Ln Lc WD LD. unfold small_round. rewrite ET. cbn [obind log_x log_y log_z].
    unfold underflows. rewrite !(proj2 (Nat.ltb_ge _ _)) by lia. cbn [orb]. cbv zeta.
    destruct (additive_twiddle_spec t n b lx ly lz i Lw Li R Ln) as [bt [EB [LB HB]]]. rewrite EB. cbn [obind].
    set (p := (lx + i)%nat) in *. replace (i + lx)%nat with p by (unfold p; lia).
    set (e' := (ly - 1 - i)%nat) in *.
    set (lpc := (ly - 1 - (lw - lx))%nat).
    set (tot := (lx + ly + lz)%nat) in *.
    set (st := (lw - S p)%nat).
    assert (LPC : (lx + ly <= lw /\ lpc = 0 \/ lw < lx + ly /\ e' = lpc + st + 1 /\ lw - lx - i = st + 1 /\ lw + lpc + 1 <= tot)%nat)
      by (unfold lpc, e', st, p, tot; lia).
    assert (CUT : (lw - lx - i = S st)%nat) by (unfold st, p; lia).
    set (nb := (tot - (lw + lpc + 1))%nat).
    assert (LEN : length D = (2 ^ (1 + (lpc + nb)))%nat).
    { rewrite LD. f_equal. unfold nb. destruct (Nat.max_spec tot (S lw)) as [[? ->]|[? ->]]; lia. }
    set (items := list_prod (seq 0 (2 ^ nb)) (seq 0 (2 ^ lpc))).
    assert (IT : forall j k, In (j, k) items <-> (j < 2 ^ nb /\ k < 2 ^ lpc)%nat).
    { intros j k. unfold items. rewrite !in_prod_iff, !in_seq. lia. }
    set (qf := fun it : nat * nat => (fst it * 2 ^ lpc + snd it)%nat).
    set (lf := fun it : nat * nat => 0%nat).
    set (gt := fun k => T0 b n (coset * 2 ^ e' + k * 2 ^ S st)%nat).
    set (G := fun k x y => do uv <- pk_interleave lw p x y;
        do uv' <- bf (pk_add (pk_broadcast lw (gt k)) bt) (fst uv) (snd uv);
        pk_interleave lw p (fst uv') (snd uv')).
    assert (LBR : forall x : F, length (pk_broadcast lw x) = wd) by (intros; apply repeat_length).
    assert (KB : forall k, (k < 2 ^ lpc)%nat -> (k * 2 ^ S st < 2 ^ e')%nat).
    { intros k Hk. destruct LPC as [[_ Z]|[_ [E1 _]]].
      - rewrite Z in Hk. cbn in Hk. replace k with 0%nat by lia. cbn. apply pow2_pos.
      - replace e' with (S st + lpc)%nat by lia. rewrite Nat.pow_add_r. pose proof (pow2_pos (S st)). nia. }
    rewrite (ofold_ext _ (fun D it => update2 D (qf it * 2 ^ 1 + lf it) (qf it * 2 ^ 1 + 2 ^ 0 + lf it) (G (snd it)))).
    2:{ intros D0 [j k] Hin. apply IT in Hin. destruct Hin as [Hj Hk]. unfold qf, lf. cbn [fst snd].
        rewrite !shl_mul, CUT. rewrite lor_shiftl by auto.
        rewrite (tw_get_spec F t n 0 b _ R).
        2:{ replace n with (e' + (n - e'))%nat by lia. apply mix_lt; auto. }
        cbn [obind]. rewrite Nat.lor_comm. rewrite lor_shiftl.
        2:{ replace (lpc + 1)%nat with (1 + lpc)%nat by lia. rewrite Nat.pow_add_r. change (2 ^ 1)%nat with 2%nat. lia. }
        replace (j * 2 ^ (lpc + 1) + k * 2 ^ 1)%nat with ((j * 2 ^ lpc + k) * 2 ^ 1 + 0)%nat by (rewrite (Nat.pow_add_r 2 lpc 1); change (2 ^ 1)%nat with 2%nat; lia).
        change 1%nat with (2 ^ 0)%nat at 4. rewrite (lor_bit _ 0) by (cbn; lia).
        unfold G, gt, T0. replace (0 + bsum b n (coset * 2 ^ e' + k * 2 ^ S st)) with (bsum b n (coset * 2 ^ e' + k * 2 ^ S st)) by ring.
        reflexivity. }
    assert (GOK : forall k x y, length x = wd -> length y = wd ->
      exists x' y', G k x y = Some (x', y') /\ length x' = wd /\ length y' = wd /\
      forall c (e : bool) r, (c < 2 ^ st)%nat -> (r < 2 ^ p)%nat ->
        let src := if e then y else x in
        let dst := if e then y' else x' in
        let w := sb (gt k + nth (c * 2 ^ S p + (if e then 2 ^ p else 0) + r) bt 0)
                    (nth (c * 2 ^ S p + r) src 0) (nth (c * 2 ^ S p + 2 ^ p + r) src 0) in
        nth (c * 2 ^ S p + r) dst 0 = fst w /\ nth (c * 2 ^ S p + 2 ^ p + r) dst 0 = snd w).
    { intros k x y Lx Ly. unfold G.
      destruct (interleave_spec p x y Lw Lx Ly) as [u [v [E1 [Lu [Lv H1]]]]]. rewrite E1. cbn [obind fst snd].
      assert (LT : length (pk_add (pk_broadcast lw (gt k)) bt) = wd).
      { unfold pk_add. apply zip_with_spec; auto. }
      destruct (HL _ u v LT Lu Lv) as [u' [v' [E2 [Lu' [Lv' H2]]]]]. rewrite E2. cbn [obind fst snd].
      destruct (interleave_spec p u' v' Lw Lu' Lv') as [x' [y' [E3 [Lx' [Ly' H3]]]]]. rewrite E3.
      exists x', y'. split; [reflexivity|]. split; [auto|]. split; [auto|].
      intros c e r Hc Hr. cbv zeta.
      assert (BND : (c * 2 ^ S p + (if e then 2 ^ p else 0) + r < wd)%nat).
      { unfold wd. replace lw with (S p + st)%nat by (unfold st; lia). rewrite <- Nat.add_assoc. apply mix_lt; auto.
        rewrite pow2_S. destruct e; lia. }
      destruct (H2 _ BND) as [A1 A2]. destruct (H1 c e r Hc Hr) as [B1 B2]. rewrite B1, B2 in A1, A2.
      assert (TW : nth (c * 2 ^ S p + (if e then 2 ^ p else 0) + r) (pk_add (pk_broadcast lw (gt k)) bt) 0 =
                   gt k + nth (c * 2 ^ S p + (if e then 2 ^ p else 0) + r) bt 0).
      { unfold pk_add. destruct (zip_with_spec fadd (pk_broadcast lw (gt k)) bt wd) as [_ Z]; auto.
        rewrite Z by auto. unfold pk_broadcast. now rewrite nth_repeat0. }
      rewrite TW in A1, A2. rewrite <- A1, <- A2.
      destruct (H3 c false r Hc Hr) as [C1 C2]. destruct (H3 c true r Hc Hr) as [C3 C4].
      cbv iota in C1, C2, C3, C4. rewrite Nat.add_0_r in C1, C2.
      destruct e; cbv iota; rewrite ?Nat.add_0_r; auto. }
    destruct (bf_fold qf lf 0 (fun it => G (snd it)) items D) as [D' [E [LD' [WD' [HP _]]]]]; auto.
    - unfold items. apply NoDup_list_prod; apply seq_NoDup.
    - intros [j k] Hin. apply IT in Hin. destruct Hin as [Hj Hk]. unfold lf, qf. cbn [fst snd]. split; [cbn; lia|].
      rewrite LEN, <- Nat.add_assoc. apply mix_lt; [now apply mix_lt|cbn; lia].
    - intros [j k] [j' k'] H1 H2 Q Q2. apply IT in H1, H2. unfold qf in Q. cbn [fst snd] in Q.
      assert (j = j').
      { apply (f_equal (fun x => x / 2 ^ lpc)%nat) in Q. rewrite !mix_div in Q by tauto. exact Q. }
      subst. f_equal. lia.
    - intros [j k] x y Hin Lx Ly. cbn [snd]. destruct (GOK k x y Lx Ly) as [x' [y' [E [L1 [L2 _]]]]]. eauto.
    - exists D'. split; [exact E|]. split; [exact LD'|]. split; [exact WD'|].
      intros s Hs. set (m := (s / 2 ^ lw)%nat). set (lane := (s mod 2 ^ lw)%nat).
      assert (LL : (lane < 2 ^ lw)%nat) by apply mod_lt.
      assert (ES : s = (m * 2 ^ lw + lane)%nat) by apply mix_dm.
      assert (LM : (m < 2 ^ (1 + (lpc + nb)))%nat).
      { unfold m. apply div_lt. apply (Nat.lt_le_trans _ (2 ^ tot)); auto. apply pow2_le. unfold nb. lia. }
      set (q := (m / 2 ^ 1)%nat). set (k := (q mod 2 ^ lpc)%nat).
      assert (Lq : (q < 2 ^ (lpc + nb))%nat) by (unfold q; now apply div_lt).
      set (em := Nat.testbit m 0).
      assert (EM : m = (q * 2 ^ 1 + (if em then 1 else 0))%nat).
      { pose proof (split_bit m 0) as SB. fold q em in SB. rewrite Nat.mod_1_r, Nat.add_0_r in SB. exact SB. }
      assert (IN : In ((q / 2 ^ lpc)%nat, k) items).
      { apply IT. split; [now apply div_lt|apply mod_lt]. }
      destruct (HP _ IN) as [a' [b' [EG [NA NB]]]]. unfold qf, lf in EG, NA, NB. cbn [fst snd] in EG, NA, NB.
      unfold k in NA, NB. rewrite <- mix_dm in EG, NA, NB. rewrite !Nat.add_0_r in EG, NA, NB.
      change (2 ^ 0)%nat with 1%nat in EG, NB. rewrite ?Nat.add_0_r in EG. rewrite ?Nat.add_0_r in NB.
      assert (BD : (q * 2 ^ 1 + 1 < length D)%nat) by (rewrite LEN; apply mix_lt; auto; cbn; lia).
      destruct (GOK k (nth (q * 2 ^ 1) D []) (nth (q * 2 ^ 1 + 1) D [])) as [a2 [b2 [E2 [_ [_ HX]]]]];
        [apply wfd_nth; auto; lia|apply wfd_nth; auto|].
      rewrite EG in E2. inversion E2; subst a2 b2. clear E2 EG.
      set (c := (lane / 2 ^ S p)%nat). set (r := (lane mod 2 ^ p)%nat).
      assert (Hc : (c < 2 ^ st)%nat) by (unfold c; apply div_lt; now replace (S p + st)%nat with lw by (unfold st; lia)).
      assert (Hr : (r < 2 ^ p)%nat) by apply mod_lt.
      specialize (HX c em r Hc Hr). cbv zeta in HX.
      assert (Hc' : (c < 2 ^ (Nat.min tot lw - (p + 1)))%nat).
      { destruct (Nat.min_spec tot lw) as [[ML ->]|[ML ->]].
        - unfold c. apply div_lt. replace (S p + (tot - (p + 1)))%nat with tot by (unfold tot, p; lia).
          enough (m = 0)%nat by lia. unfold m. apply Nat.div_small. apply (Nat.lt_le_trans _ (2 ^ tot)); auto. apply pow2_le. lia.
        - now replace (lw - (p + 1))%nat with st by (unfold st; lia). }
      rewrite (HB c em r Hc' Hr) in HX.
      assert (SRC : (if em then nth (q * 2 ^ 1 + 1) D [] else nth (q * 2 ^ 1) D []) = nth m D []).
      { rewrite EM. destruct em; [reflexivity|now rewrite Nat.add_0_r]. }
      assert (DST : (if em then b' else a') = nth m D' []).
      { rewrite EM. rewrite <- NA, <- NB. destruct em; [reflexivity|now rewrite Nat.add_0_r]. }
      rewrite SRC, DST in HX.
      unfold Rnd.
      assert (QS : (s / 2 ^ S p = m * 2 ^ st + c)%nat).
      { rewrite ES. rewrite mix_div_lo by (unfold st; lia). reflexivity. }
      assert (BS : Nat.testbit s p = Nat.testbit lane p).
      { rewrite ES. now apply mix_bit_lo. }
      assert (RS : (s mod 2 ^ p = r)%nat).
      { rewrite ES. apply mix_mod_lo. lia. }
      rewrite QS, BS, RS.
      replace ((m * 2 ^ st + c) * 2 ^ S p)%nat with (m * 2 ^ lw + c * 2 ^ S p)%nat.
      2:{ replace lw with (st + S p)%nat by (unfold st; lia). rewrite Nat.pow_add_r. lia. }
      assert (L2 : (c * 2 ^ S p + 2 ^ p + r < 2 ^ lw)%nat).
      { replace lw with (S p + st)%nat by (unfold st; lia). rewrite <- Nat.add_assoc. apply mix_lt; auto. rewrite pow2_S. lia. }
      rewrite <- !Nat.add_assoc. rewrite !sc_at by lia. rewrite !Nat.add_assoc.
      assert (TW : gt k + T0 b n (if (lx + ly <=? lw)%nat then (c mod 2 ^ e')%nat
                else ((if em then 2 ^ (lw - lx - i - 1) else 0) + c)%nat) =
              T0 b n (coset * 2 ^ e' + (m * 2 ^ st + c) mod 2 ^ e')%nat).
      { unfold gt. destruct LPC as [[A Z]|[A [E1 [E2 E3]]]].
        - rewrite (proj2 (Nat.leb_le _ _)) by lia.
          assert (k = 0)%nat as -> by (unfold k; rewrite Z; apply Nat.mod_1_r).
          cbn [Nat.mul]. rewrite Nat.add_0_r. rewrite mix_mod_lo by (unfold e', st, p; lia).
          symmetry. apply T0_add; auto. apply mod_lt.
        - rewrite (proj2 (Nat.leb_gt _ _)) by lia.
          replace (lw - lx - i - 1)%nat with st by lia.
          replace ((m * 2 ^ st + c) mod 2 ^ e')%nat with (k * 2 ^ S st + ((if em then 2 ^ st else 0) + c))%nat.
          2:{ replace e' with (S st + lpc)%nat by lia. rewrite mod_split.
              rewrite <- div_div with (a := st) (b := 1%nat) || replace (S st) with (st + 1)%nat by lia.
              rewrite <- (div_div _ st 1), mix_div by auto. fold q. fold k. f_equal.
              replace (st + 1)%nat with (S st) by lia. rewrite mod_S.
              rewrite mix_bit_hi, Nat.sub_diag by auto. fold em. rewrite mix_mod by auto. reflexivity. }
          rewrite Nat.add_assoc.
          replace (coset * 2 ^ e' + k * 2 ^ S st)%nat with ((coset * 2 ^ lpc + k) * 2 ^ S st)%nat.
          2:{ replace e' with (lpc + S st)%nat by lia. rewrite Nat.pow_add_r. lia. }
          symmetry. apply T0_add; [lia|]. rewrite pow2_S. destruct em; lia. }
      rewrite TW in HX. destruct HX as [H1 H2]. rewrite <- H1, <- H2.
      rewrite ES. rewrite sc_at by auto.
      pose proof (split_bit lane p) as SB. fold c r in SB. destruct (Nat.testbit lane p); rewrite SB at 1; f_equal; lia.
  Qed.
  End Width.
End Proofs.
