(** The multithreaded transform: every schedule computes the single-threaded rounds. *)
Require Import Coq.setoid_ring.Ring Coq.Arith.Arith Coq.Lists.List Coq.Bool.Bool Coq.Sorting.Permutation Lia.
From Verif Require Import Base.Fld Base.Lists Base.Sums Base.NatBits Base.Par Ntt.NttSpec Ntt.SubspaceTheory Ntt.TwiddleModel
  Ntt.TwiddleProofs Ntt.NttModel Ntt.NttProofs Ntt.NttCompose Ntt.NttProps Ntt.ParNttModel.
Import ListNotations.

Lemma ofold_map {A B C} (f : A -> B -> option A) (g : C -> B) l : forall a, ofold f (map g l) a = ofold (fun a c => f a (g c)) l a.
Proof. induction l as [|c l IH]; intros a; [reflexivity|]. cbn. destruct (f a (g c)); auto. Qed.

Lemma ofold_flat_map {A B C} (f : A -> B -> option A) (g : C -> list B) l :
  forall a, ofold f (flat_map g l) a = ofold (fun a c => ofold f (g c) a) l a.
Proof.
  induction l as [|c l IH]; intros a; [reflexivity|]. cbn [flat_map ofold]. rewrite ofold_app.
  destruct (ofold f (g c) a); cbn [obind]; auto.
Qed.

Lemma upd_comm {A} (l : list A) i j x y : i <> j -> upd (upd l i x) j y = upd (upd l j y) i x.
Proof.
  intros N. revert i j N. induction l as [|a l IH]; intros i j N; [destruct i, j; reflexivity|].
  destruct i, j; cbn; auto. - now elim N. - f_equal. apply IH. lia.
Qed.

Lemma update2_commute {F : field} (D : list (list F)) i0 i1 j0 j1 f g :
  i0 <> j0 -> i0 <> j1 -> i1 <> j0 -> i1 <> j1 ->
  obind (update2 D i0 i1 f) (fun D' => update2 D' j0 j1 g) = obind (update2 D j0 j1 g) (fun D' => update2 D' i0 i1 f).
Proof.
  intros N1 N2 N3 N4. unfold update2.
  destruct (nth_error D i0) as [a|] eqn:E0; cbn [obind].
  2:{ destruct (nth_error D j0) as [c|]; cbn [obind]; auto. destruct (nth_error D j1) as [e|]; cbn [obind]; auto.
      destruct (g c e) as [[c' e']|]; cbn [obind]; auto. rewrite !nth_error_upd_ne by auto. now rewrite E0. }
  destruct (nth_error D i1) as [b|] eqn:E1; cbn [obind].
  2:{ destruct (nth_error D j0) as [c|]; cbn [obind]; auto. destruct (nth_error D j1) as [e|]; cbn [obind]; auto.
      destruct (g c e) as [[c' e']|]; cbn [obind]; auto. rewrite !nth_error_upd_ne by auto. now rewrite E0, E1. }
  destruct (f a b) as [[a' b']|] eqn:EF; cbn [obind fst snd].
  2:{ destruct (nth_error D j0) as [c|]; cbn [obind]; auto. destruct (nth_error D j1) as [e|]; cbn [obind]; auto.
      destruct (g c e) as [[c' e']|]; cbn [obind fst snd]; auto. rewrite !nth_error_upd_ne by auto. rewrite E0, E1. cbn [obind]. now rewrite EF. }
  rewrite !nth_error_upd_ne by auto.
  destruct (nth_error D j0) as [c|] eqn:E2; cbn [obind]; auto. destruct (nth_error D j1) as [e|] eqn:E3; cbn [obind]; auto.
  destruct (g c e) as [[c' e']|] eqn:EG; cbn [obind fst snd]; auto.
  rewrite !nth_error_upd_ne by auto. rewrite E0, E1. cbn [obind]. rewrite EF. cbn [obind fst snd]. f_equal.
  rewrite (upd_comm (upd D i0 a') i1 j0) by auto. rewrite (upd_comm D i0 j0) by auto.
  rewrite (upd_comm _ i1 j1) by auto. rewrite (upd_comm _ i0 j1) by auto. reflexivity.
Qed.

(** ** The layout *)
Record good_layout (lw ln lx ly lz : nat) (L : layout) : Prop := {
  gl_hw : log_height L + log_width L = ln;
  gl_w : 1 <= log_width L;
  gl_x : lx <= log_width L + lw;
  gl_par : par_rounds L = log_height L - lz;
  gl_rz : log_row_z L = lz - log_height L;
  gl_ry : row_log_y L = ly - par_rounds L;
  gl_ly : par_rounds L <= ly;
  gl_lsl : log_stride_len L <= log_width L;
  gl_row : lx + row_log_y L + log_row_z L = log_width L + lw;
  gl_col : par_rounds L <> 0 -> lx + row_log_y L = log_width L + lw;
  gl_z : log_row_z L = 0 \/ par_rounds L = 0
}.

Lemma mt_layout_good lw lmt ln lx ly lz : 1 <= ln -> lx + ly + lz = ln + lw ->
  exists L, mt_layout lw lmt (mkShape lx ly lz) = Some L /\ good_layout lw ln lx ly lz L.
Proof.
  intros H1 H2. unfold mt_layout. cbn [log_x log_y log_z]. unfold underflows.
  rewrite (proj2 (Nat.ltb_ge _ _)) by lia.
  set (h := Nat.min _ lmt).
  assert (Hh : h <= lx + ly + lz - (lw + 1) /\ h <= lx + ly + lz - lx) by (unfold h; lia). clearbody h.
  rewrite (proj2 (Nat.ltb_ge _ _)) by lia. rewrite (proj2 (Nat.ltb_ge _ _)) by lia.
  eexists. split; [reflexivity|]. constructor; cbn [log_height log_width par_rounds log_stride_len log_row_z row_log_y]; lia.
Qed.

Section Proofs.
  Variable F : field.
  Hypothesis H2 : char2 F.
  Local Open Scope fld_scope.
  Add Ring Fring : (f_ring F).
  Variable lw : nat.

  (** ** Column phase *)
  Lemma in_col_round L sh st i o : In o (col_round L sh st i) <->
    op_st o = st /\ op_i o = i /\ (op_j o < 2 ^ log_z sh)%nat /\ (op_k o < 2 ^ (par_rounds L - 1 - i))%nat /\
    (op_l o < 2 ^ i)%nat /\ (op_m o < 2 ^ log_stride_len L)%nat.
  Proof.
    unfold col_round. rewrite in_map_iff. split.
    - intros [[[[j k] l] m] [<- Hi]]. rewrite !in_prod_iff, !in_seq in Hi. cbn. lia.
    - intros H. destruct o as [st' i' j k l m]. cbn in H. destruct H as [-> [-> H]]. exists (j, k, l, m). split; auto.
      rewrite !in_prod_iff, !in_seq. lia.
  Qed.

  Section Col.
  Variables (bf : list F -> list F -> list F -> option (list F * list F)) (L : layout) (sev : list (twiddle F)) (coset : nat).
  Hypothesis LS : (log_stride_len L <= log_width L)%nat.

  Lemma col_off (st m : nat) : (st < 2 ^ (log_width L - log_stride_len L))%nat -> (m < 2 ^ log_stride_len L)%nat ->
    (st * 2 ^ log_stride_len L + m < 2 ^ log_width L)%nat.
  Proof.
    intros H1 H3. pose proof (mix_lt _ _ _ _ H1 H3) as Q. now replace (log_stride_len L + (log_width L - log_stride_len L))%nat with (log_width L) in Q by lia.
  Qed.

  Lemma col_commute a b : (op_st a < 2 ^ (log_width L - log_stride_len L))%nat -> (op_m a < 2 ^ log_stride_len L)%nat ->
    (op_st b < 2 ^ (log_width L - log_stride_len L))%nat -> (op_m b < 2 ^ log_stride_len L)%nat -> op_st a <> op_st b ->
    commute (col_step bf lw L sev coset) a b.
  Proof.
    intros A1 A2 B1 B2 N D. unfold col_step. cbv zeta.
    destruct (nth_error sev (op_i a)) as [ta|]; cbn [obind].
    2:{ destruct (nth_error sev (op_i b)) as [tb|]; cbn [obind]; auto. destruct (tw_get tb _); cbn [obind]; auto.
        now destruct (update2 _ _ _ _). }
    destruct (tw_get ta _) as [wa|]; cbn [obind].
    2:{ destruct (nth_error sev (op_i b)) as [tb|]; cbn [obind]; auto. destruct (tw_get tb _); cbn [obind]; auto.
        now destruct (update2 _ _ _ _). }
    destruct (nth_error sev (op_i b)) as [tb|]; cbn [obind]; [|now destruct (update2 _ _ _ _)].
    destruct (tw_get tb _) as [wb|]; cbn [obind]; [|now destruct (update2 _ _ _ _)].
    assert (SEP : forall r r', (r * 2 ^ log_width L + op_st a * 2 ^ log_stride_len L + op_m a)%nat <>
                               (r' * 2 ^ log_width L + op_st b * 2 ^ log_stride_len L + op_m b)%nat).
    { intros r r' E. apply N. rewrite <- !Nat.add_assoc in E.
      apply (f_equal (fun x => x mod 2 ^ log_width L)%nat) in E. rewrite !mix_mod in E by now apply col_off.
      apply (f_equal (fun x => x / 2 ^ log_stride_len L)%nat) in E. rewrite !mix_div in E by auto. exact E. }
    apply update2_commute; apply SEP.
  Qed.

  Lemma col_phase_rounds sh rounds tr : col_schedule L sh rounds tr ->
    forall D, ofold (col_step bf lw L sev coset) tr D =
      ofold (fun D i => ofold (col_step bf lw L sev coset) (flat_map (fun st => col_round L sh st i) (strides L)) D) rounds D.
  Proof.
    intros SH D. rewrite <- ofold_flat_map. revert D.
    assert (BD : forall st, In st (strides L) -> (st < 2 ^ (log_width L - log_stride_len L))%nat).
    { intros st Hs. unfold strides in Hs. apply in_seq in Hs. lia. }
    apply (eqt_trans _ _ (concat (map (col_job L sh rounds) (strides L)))).
    - apply shuffle_sequential; auto.
      assert (ND : NoDup (strides L)) by apply seq_NoDup. clear SH. induction (strides L) as [|st l IH]; [constructor|].
      inversion ND; subst. cbn [map]. constructor; [|apply IH; auto; intros; apply BD; now right].
      apply Forall_forall. intros j2 Hj2 a b Ha Hb. apply in_map_iff in Hj2. destruct Hj2 as [st' [<- Hst']].
      unfold col_job in Ha, Hb. apply in_flat_map in Ha, Hb. destruct Ha as [i [_ Ha]], Hb as [i' [_ Hb]].
      apply in_col_round in Ha, Hb. destruct Ha as [Ea [_ [_ [_ [_ Ma]]]]], Hb as [Eb [_ [_ [_ [_ Mb]]]]].
      apply col_commute; auto; try (rewrite Ea; apply BD; now left); try (rewrite Eb; apply BD; now right).
      rewrite Ea, Eb. intros ->. contradiction.
    - unfold col_job. apply (round_major (col_step bf lw L sev coset) (fun st i => col_round L sh st i)); [apply seq_NoDup|].
      intros st st' i i' a b N Hst Hst' _ _ Ha Hb. apply in_col_round in Ha, Hb.
      destruct Ha as [Ea [_ [_ [_ [_ Ma]]]]], Hb as [Eb [_ [_ [_ [_ Mb]]]]].
      apply col_commute; auto; try (rewrite Ea; now apply BD); try (rewrite Eb; now apply BD). congruence.
  Qed.
  End Col.

  Definition trun (bf : list F -> list F -> list F -> option (list F * list F)) (D : list (list F)) (o : nat * nat * F)
    : option (list (list F)) :=
    let '(p0, p1, tw) := o in update2 D p0 p1 (bf (pk_broadcast lw tw)).

  (** One round of the column phase is a round of the single-threaded transform. *)
  Lemma col_round_big bf L sev sl lx ly lz coset i (T : nat -> F) t ln D :
    good_layout lw ln lx ly lz L -> (i < par_rounds L)%nat ->
    nth_error sev i = Some t -> nth_error sl (i + row_log_y L) = Some t ->
    (forall k, (k < 2 ^ (par_rounds L - 1 - i))%nat -> tw_get t (coset * 2 ^ (par_rounds L - 1 - i) + k) = Some (T k)) ->
    ofold (col_step bf lw L sev coset) (flat_map (fun st => col_round L (mkShape lx ly lz) st i) (strides L)) D =
    big_round bf lw sl (mkShape lx ly lz) coset D (i + row_log_y L).
  Proof.
    intros G Hi N1 N2 HT. destruct G as [Ghw Gw Gx Gpar Grz Gry Gly Glsl Grow Gcol Gz].
    assert (PN : (par_rounds L <> 0)%nat) by lia. specialize (Gcol PN).
    set (P := (i + log_width L)%nat). set (e := (par_rounds L - 1 - i)%nat) in *.
    set (ls := log_stride_len L) in *. set (w := log_width L) in *. set (par := par_rounds L) in *.
    set (tri := fun o : col_op => let l' := (op_l o * 2 ^ w + op_st o * 2 ^ ls + op_m o)%nat in
       (((op_j o * 2 ^ e + op_k o) * 2 ^ S P + l')%nat, ((op_j o * 2 ^ e + op_k o) * 2 ^ S P + 2 ^ P + l')%nat, T (op_k o))).
    set (tri' := fun it : nat * nat * nat => let '(j, k, l') := it in
       (((j * 2 ^ e + k) * 2 ^ S P + l')%nat, ((j * 2 ^ e + k) * 2 ^ S P + 2 ^ P + l')%nat, T k)).
    set (items := list_prod (list_prod (seq 0 (2 ^ lz)) (seq 0 (2 ^ e))) (seq 0 (2 ^ P))).
    set (ops := flat_map (fun st => col_round L (mkShape lx ly lz) st i) (strides L)).
    assert (IT : forall j k l, In (j, k, l) items <-> (j < 2 ^ lz /\ k < 2 ^ e /\ l < 2 ^ P)%nat).
    { intros j k l. unfold items. rewrite !in_prod_iff, !in_seq. lia. }
    assert (IO : forall o, In o ops <-> (op_st o < 2 ^ (w - ls) /\ op_i o = i /\ op_j o < 2 ^ lz /\ op_k o < 2 ^ e /\
        op_l o < 2 ^ i /\ op_m o < 2 ^ ls)%nat).
    { intros o. unfold ops. rewrite in_flat_map. unfold strides. fold w ls. split.
      - intros [st [Hs Ho]]. apply in_seq in Hs. apply in_col_round in Ho. fold par e ls in Ho. cbn [log_z] in Ho.
        destruct Ho as [<- Ho]. split; [lia|exact Ho].
      - intros [Hs Ho]. exists (op_st o). split; [apply in_seq; lia|]. apply in_col_round. auto. }
    assert (OFF : forall o, In o ops -> (op_st o * 2 ^ ls + op_m o < 2 ^ w)%nat).
    { intros o Ho. apply IO in Ho. apply col_off; tauto. }
    assert (LL : forall o, In o ops -> (op_l o * 2 ^ w + op_st o * 2 ^ ls + op_m o < 2 ^ P)%nat).
    { intros o Ho. pose proof (OFF o Ho). apply IO in Ho. rewrite <- Nat.add_assoc. unfold P.
      rewrite (Nat.add_comm i w). apply mix_lt; tauto. }
    assert (PS : (2 ^ S P = 2 ^ S i * 2 ^ w)%nat) by (unfold P; rewrite <- Nat.pow_add_r; f_equal; lia).
    assert (PP : (2 ^ P = 2 ^ i * 2 ^ w)%nat) by (unfold P; rewrite <- Nat.pow_add_r; f_equal; lia).
    transitivity (ofold (trun bf) (map tri ops) D).
    { rewrite ofold_map. apply ofold_ext. intros D0 o Ho. pose proof (LL o Ho) as LO. pose proof (OFF o Ho) as OF. apply IO in Ho.
      destruct Ho as [_ [EI [Hj [Hk [Hl Hm]]]]]. unfold col_step. rewrite EI, N1. cbn [obind]. cbv zeta. fold par e ls w.
      rewrite shl_mul, lor_shiftl by auto. rewrite HT by auto. cbn [obind]. unfold trun, tri. cbv zeta.
      rewrite !shl_mul, Nat.mul_1_l. replace (i + 1)%nat with (S i) by lia.
      assert (KS : (op_k o * 2 ^ S i < 2 ^ par)%nat).
      { replace par with (S i + e)%nat by (unfold e; lia). rewrite Nat.pow_add_r. pose proof (pow2_pos (S i)). nia. }
      rewrite (lor_shiftl (op_j o) par) by auto.
      replace (op_j o * 2 ^ par + op_k o * 2 ^ S i)%nat with ((op_j o * 2 ^ e + op_k o) * 2 ^ S i)%nat.
      2:{ replace par with (S i + e)%nat by (unfold e; lia). rewrite Nat.pow_add_r. lia. }
      rewrite lor_shiftl by (rewrite pow2_S; lia). rewrite lor_bit by auto.
      rewrite PS, PP. f_equal; lia. }
    transitivity (ofold (trun bf) (map tri' items) D).
    2:{ rewrite ofold_map. unfold big_round. rewrite N2. cbn [obind log_x log_y log_z]. unfold underflows.
        rewrite !(proj2 (Nat.ltb_ge _ _)) by lia. cbn [orb]. cbv zeta.
        replace (ly - 1 - (i + row_log_y L))%nat with e by (unfold e; lia).
        replace (i + row_log_y L + lx - lw)%nat with P by (unfold P; lia). fold items.
        apply ofold_ext. intros D0 [[j k] l] Hin. apply IT in Hin. destruct Hin as [Hj [Hk Hl]]. unfold trun, tri'.
        rewrite shl_mul, lor_shiftl by auto. rewrite HT by auto. cbn [obind].
        rewrite !shl_mul, Nat.mul_1_l.
        replace (lx + ly - lw)%nat with (S P + e)%nat by (unfold P, e; lia).
        replace (lx + (i + row_log_y L) + 1 - lw)%nat with (S P) by (unfold P; lia).
        replace (lx + (i + row_log_y L) - lw)%nat with P by (unfold P; lia).
        assert (KS : (k * 2 ^ S P < 2 ^ (S P + e))%nat).
        { rewrite Nat.pow_add_r. pose proof (pow2_pos (S P)). nia. }
        rewrite (lor_shiftl j (S P + e)) by auto.
        replace (j * 2 ^ (S P + e) + k * 2 ^ S P)%nat with ((j * 2 ^ e + k) * 2 ^ S P)%nat by (rewrite Nat.pow_add_r; lia).
        assert (LSP : (l < 2 ^ S P)%nat) by (rewrite pow2_S; lia).
        rewrite lor_shiftl by auto. rewrite lor_bit by auto. reflexivity. }
    assert (SAME : forall x, In x (map tri ops) <-> In x (map tri' items)).
    { intros x. rewrite !in_map_iff. split.
      - intros [o [<- Ho]]. pose proof (LL o Ho). apply IO in Ho.
        exists (op_j o, op_k o, (op_l o * 2 ^ w + op_st o * 2 ^ ls + op_m o)%nat). split; [reflexivity|]. apply IT. tauto.
      - intros [[[j k] l] [<- Hin]]. apply IT in Hin. destruct Hin as [Hj [Hk Hl]].
        set (c := (l mod 2 ^ w)%nat).
        assert (Hc : (c < 2 ^ w)%nat) by apply mod_lt.
        exists (mkOp (c / 2 ^ ls) i j k (l / 2 ^ w) (c mod 2 ^ ls)). split.
        + unfold tri, tri'. cbn [op_j op_k op_l op_st op_m]. cbv zeta. rewrite <- Nat.add_assoc, <- mix_dm.
          unfold c. rewrite <- mix_dm. reflexivity.
        + apply IO. cbn [op_j op_k op_l op_st op_m op_i]. split; [|split; [reflexivity|]].
          * apply div_lt. now replace (ls + (w - ls))%nat with w by lia.
          * split; auto. split; auto. split; [|apply mod_lt]. apply div_lt. now rewrite Nat.add_comm. }
    assert (DIS : forall x y, In x (map tri' items) -> In y (map tri' items) -> x <> y -> commute (trun bf) x y).
    { intros x y Hx Hy N D0. apply in_map_iff in Hx, Hy. destruct Hx as [[[j k] l] [<- Hx]], Hy as [[[j' k'] l'] [<- Hy]].
      apply IT in Hx, Hy. destruct Hx as [Hj [Hk Hl]], Hy as [Hj' [Hk' Hl']]. unfold trun, tri' in *.
      pose proof (pow2_S P) as PW. pose proof (pow2_pos P).
      assert (NE : ((j * 2 ^ e + k) * 2 ^ S P + l)%nat <> ((j' * 2 ^ e + k') * 2 ^ S P + l')%nat).
      { intros E. apply N. pose proof E as E'.
        apply (f_equal (fun x => x / 2 ^ S P)%nat) in E. rewrite !mix_div in E by lia.
        assert (l = l') as -> by lia. apply (f_equal (fun x => x mod 2 ^ e)%nat) in E. rewrite !mix_mod in E by auto. subst k'.
        f_equal. f_equal; lia. }
      apply update2_commute; auto.
      - intros E. pose proof (bit_clear (j * 2 ^ e + k) P l Hl) as Q. rewrite E, bit_set in Q by auto. discriminate.
      - intros E. pose proof (bit_set (j * 2 ^ e + k) P l Hl) as Q. rewrite E, bit_clear in Q by auto. discriminate.
      - lia. }
    assert (ND1 : NoDup (map tri ops)).
    { apply NoDup_map_in.
      - unfold ops.
        assert (NS : NoDup (strides L)) by apply seq_NoDup. clear - NS. induction (strides L) as [|st l IH]; [constructor|].
        inversion NS; subst. cbn [flat_map]. apply NoDup_app_disj; auto.
        + unfold col_round. apply NoDup_map_in; [repeat apply NoDup_list_prod; apply seq_NoDup|].
          intros [[[j k] l0] m] [[[j' k'] l0'] m'] _ _ E. inversion E. reflexivity.
        + intros o Ho Ho'. apply in_flat_map in Ho'. destruct Ho' as [st' [Hs Ho']]. apply in_col_round in Ho, Ho'.
          destruct Ho as [Q _], Ho' as [Q' _]. rewrite Q in Q'. subst st'. contradiction.
      - intros o o' Ho Ho' E. pose proof (LL o Ho) as L1. pose proof (LL o' Ho') as L1'. pose proof (OFF o Ho) as O1. pose proof (OFF o' Ho') as O1'.
        apply IO in Ho, Ho'. unfold tri in E. cbv zeta in E.
        apply (f_equal (fun x => fst (fst x))) in E. cbn [fst] in E. pose proof E as E'.
        pose proof (pow2_S P).
        apply (f_equal (fun x => x / 2 ^ S P)%nat) in E. rewrite !mix_div in E by lia.
        apply (f_equal (fun x => x mod 2 ^ S P)%nat) in E'. rewrite !mix_mod in E' by lia.
        rewrite <- !Nat.add_assoc in E'. pose proof E' as E2. pose proof E as E1.
        apply (f_equal (fun x => x / 2 ^ w)%nat) in E'. rewrite !mix_div in E' by auto.
        apply (f_equal (fun x => x mod 2 ^ w)%nat) in E2. rewrite !mix_mod in E2 by auto. pose proof E2 as E3.
        apply (f_equal (fun x => x / 2 ^ ls)%nat) in E2. rewrite !mix_div in E2 by tauto.
        apply (f_equal (fun x => x mod 2 ^ ls)%nat) in E3. rewrite !mix_mod in E3 by tauto.
        apply (f_equal (fun x => x / 2 ^ e)%nat) in E. rewrite !mix_div in E by tauto.
        apply (f_equal (fun x => x mod 2 ^ e)%nat) in E1. rewrite !mix_mod in E1 by tauto.
        destruct Ho as [_ [EI _]], Ho' as [_ [EI' _]]. destruct o, o'. cbn in *. congruence. }
    assert (ND2 : NoDup (map tri' items)).
    { apply NoDup_map_in; [unfold items; repeat apply NoDup_list_prod; apply seq_NoDup|].
      intros [[j k] l] [[j' k'] l'] Hx Hy E. apply IT in Hx, Hy. unfold tri' in E.
      apply (f_equal (fun x => fst (fst x))) in E. cbn [fst] in E. pose proof E as E'. pose proof (pow2_S P).
      apply (f_equal (fun x => x / 2 ^ S P)%nat) in E. rewrite !mix_div in E by lia.
      assert (l = l') as -> by lia. pose proof E as E1.
      apply (f_equal (fun x => x / 2 ^ e)%nat) in E. rewrite !mix_div in E by tauto.
      apply (f_equal (fun x => x mod 2 ^ e)%nat) in E1. rewrite !mix_mod in E1 by tauto. congruence. }
    symmetry. apply (eqt_permutation (trun bf)); auto.
    apply NoDup_Permutation; auto. intros x. symmetry. apply SAME.
  Qed.

  (** ** Row phase *)
  Lemma nth_error_chunk (D : list (list F)) W c r : nth_error (chunk D W c) r = if (r <? W)%nat then nth_error D (c * W + r) else None.
  Proof. unfold chunk. now rewrite nth_error_firstn, nth_error_skipn. Qed.

  Lemma chunk_length (D : list (list F)) W c : (c * W + W <= length D)%nat -> length (chunk D W c) = W.
  Proof. intros H. unfold chunk. rewrite firstn_length, skipn_length. lia. Qed.

  Lemma splice_length (D : list (list F)) W c r : (c * W + W <= length D)%nat -> length r = W -> length (splice D W c r) = length D.
  Proof. intros H L. unfold splice. rewrite !app_length, firstn_length, skipn_length, L. lia. Qed.

  Lemma chunk_splice (D : list (list F)) W c r c' : (c * W + W <= length D)%nat -> length r = W ->
    chunk (splice D W c r) W c' = if (c' =? c)%nat then r else chunk D W c'.
  Proof.
    intros H L. apply nth_error_ext. intros i. rewrite nth_error_chunk.
    assert (LF : length (firstn (c * W) D) = (c * W)%nat) by (rewrite firstn_length; lia).
    destruct (Nat.ltb_spec i W) as [Li|Li].
    2:{ destruct (Nat.eqb_spec c' c) as [_|_].
        - symmetry. apply nth_error_None. lia.
        - rewrite nth_error_chunk. now rewrite (proj2 (Nat.ltb_ge _ _)). }
    unfold splice. destruct (Nat.eqb_spec c' c) as [->|N].
    - rewrite nth_error_app2 by lia. rewrite LF. replace (c * W + i - c * W)%nat with i by lia. now rewrite nth_error_app1 by lia.
    - rewrite nth_error_chunk, (proj2 (Nat.ltb_lt _ _)) by auto.
      destruct (Nat.lt_ge_cases c' c) as [Lc|Lc].
      + rewrite nth_error_app1 by nia. rewrite nth_error_firstn. rewrite (proj2 (Nat.ltb_lt _ _)); auto. nia.
      + assert (c < c')%nat by lia. rewrite nth_error_app2 by nia. rewrite LF.
        rewrite nth_error_app2 by nia. rewrite nth_error_skipn, L. f_equal. nia.
  Qed.

  Lemma chunks_ext (D D' : list (list F)) W h : length D = (h * W)%nat -> length D' = length D ->
    (forall c, (c < h)%nat -> chunk D W c = chunk D' W c) -> D = D'.
  Proof.
    intros L L' H. apply nth_error_ext. intros i. destruct (Nat.lt_ge_cases i (length D)) as [Li|Li].
    - assert (W <> 0)%nat by nia. assert (i / W < h)%nat by (apply Nat.div_lt_upper_bound; lia).
      pose proof (f_equal (fun l => nth_error l (i mod W)) (H _ H1)) as Q. cbn beta in Q. rewrite !nth_error_chunk in Q.
      rewrite (proj2 (Nat.ltb_lt _ _)) in Q by (now apply Nat.mod_upper_bound).
      replace (i / W * W + i mod W)%nat with i in Q; [exact Q|]. rewrite (Nat.div_mod i W) at 1 by auto. lia.
    - rewrite !(proj2 (nth_error_None _ _)) by lia. reflexivity.
  Qed.

  Lemma chunk_wfd (D : list (list F)) W c : wfd lw D -> wfd lw (chunk D W c).
  Proof.
    intros H p Hp. apply H. apply In_nth_error in Hp. destruct Hp as [i Hi]. rewrite nth_error_chunk in Hi.
    destruct (i <? W)%nat; [|discriminate]. now apply nth_error_In in Hi.
  Qed.

  Lemma wfd_of_chunks (D : list (list F)) W h : length D = (h * W)%nat -> (forall c, (c < h)%nat -> wfd lw (chunk D W c)) -> wfd lw D.
  Proof.
    intros L H p Hp. apply In_nth_error in Hp. destruct Hp as [i Hi]. pose proof (nth_error_lt _ _ _ Hi) as Li.
    assert (W <> 0)%nat by nia. assert (i / W < h)%nat by (apply Nat.div_lt_upper_bound; lia).
    apply (H _ H1). apply (nth_error_In _ (i mod W)). rewrite nth_error_chunk.
    rewrite (proj2 (Nat.ltb_lt _ _)) by (now apply Nat.mod_upper_bound).
    replace (i / W * W + i mod W)%nat with i; [exact Hi|]. rewrite (Nat.div_mod i W) at 1 by auto. lia.
  Qed.

  (** Whatever the order of the chunks, each is replaced by its own result. *)
  Lemma rows_fold (f : nat -> list (list F) -> res (list (list F))) (out : nat -> list (list F)) W h order :
    NoDup order -> (forall c, In c order -> (c < h)%nat) ->
    forall D, length D = (h * W)%nat ->
    (forall c, In c order -> f c (chunk D W c) = Ok (out c) /\ length (out c) = W) ->
    exists R, rfold (fun D c => try r <- f c (chunk D W c); Ok (splice D W c r)) order D = Ok R /\ length R = length D /\
      forall c, chunk R W c = if in_dec Nat.eq_dec c order then out c else chunk D W c.
  Proof.
    induction order as [|c0 order IH]; intros ND HB D L H.
    - exists D. cbn. auto.
    - inversion ND; subst. assert (B0 : (c0 < h)%nat) by (apply HB; now left).
      destruct (H c0 (or_introl eq_refl)) as [E0 L0].
      assert (BD : (c0 * W + W <= length D)%nat) by (rewrite L; nia).
      assert (LS : length (splice D W c0 (out c0)) = length D) by now apply splice_length.
      destruct (IH) with (D := splice D W c0 (out c0)) as [R [ER [LR HR]]]; auto.
      + intros. apply HB. now right.
      + congruence.
      + intros c Hc. rewrite chunk_splice by auto. destruct (Nat.eqb_spec c c0) as [->|N]; [contradiction|]. apply H. now right.
      + exists R. cbn [rfold]. rewrite E0. cbn [rbind]. split; [exact ER|]. split; [congruence|].
        intros c. rewrite HR. rewrite chunk_splice by auto.
        destruct (in_dec Nat.eq_dec c order) as [I|I], (in_dec Nat.eq_dec c (c0 :: order)) as [I'|I']; auto.
        * elim I'. now right.
        * destruct I' as [->|I']; [|contradiction]. now rewrite Nat.eqb_refl.
        * destruct (Nat.eqb_spec c c0) as [->|N]; auto. elim I'. now left.
  Qed.

  Lemma rows_perm (f : nat -> list (list F) -> res (list (list F))) (out : nat -> list (list F)) W h order D :
    Permutation order (seq 0 h) -> length D = (h * W)%nat ->
    (forall c, (c < h)%nat -> f c (chunk D W c) = Ok (out c) /\ length (out c) = W) ->
    exists R, rfold (fun D c => try r <- f c (chunk D W c); Ok (splice D W c r)) order D = Ok R /\ length R = length D /\
      forall c, (c < h)%nat -> chunk R W c = out c.
  Proof.
    intros P L H. destruct (rows_fold f out W h order) with (D := D) as [R [E [LR HR]]]; auto.
    - apply (Permutation_NoDup (Permutation_sym P)). apply seq_NoDup.
    - intros c Hc. apply (Permutation_in _ P), in_seq in Hc. lia.
    - intros c Hc. apply H. apply (Permutation_in _ P), in_seq in Hc. lia.
    - exists R. split; auto. split; auto. intros c Hc. rewrite HR.
      destruct (in_dec Nat.eq_dec c order) as [I|I]; auto. elim I. apply (Permutation_in _ (Permutation_sym P)), in_seq. lia.
  Qed.

  (** ** A chunk of the scalar function *)
  Lemma sc_chunk (D : list (list F)) w c s : (s < 2 ^ (w + lw))%nat ->
    sc lw (chunk D (2 ^ w) c) s = sc lw D (c * 2 ^ (w + lw) + s).
  Proof.
    intros Hs. unfold sc. rewrite mix_mod_lo by lia. f_equal.
    rewrite mix_div_lo by lia. replace (w + lw - lw)%nat with w by lia.
    assert (Q : (s / 2 ^ lw < 2 ^ w)%nat) by (apply div_lt; now rewrite Nat.add_comm).
    pose proof (nth_error_chunk D (2 ^ w) c (s / 2 ^ lw)) as E. rewrite (proj2 (Nat.ltb_lt _ _) Q) in E.
    destruct (nth_error D (c * 2 ^ w + s / 2 ^ lw)) as [x|] eqn:E'.
    - rewrite (nth_error_nth _ _ _ E), (nth_error_nth _ _ _ E'). reflexivity.
    - rewrite !nth_overflow; auto; now apply nth_error_None.
  Qed.

  Lemma Rnd_chunk sb lx ly ry par rz W (T : nat -> F) g c s i : (i < ry)%nat -> (ly = ry + par)%nat -> (lx + ry + rz = W)%nat ->
    (rz = 0 \/ par = 0)%nat -> (s < 2 ^ W)%nat ->
    Rnd sb (lx + i) (2 ^ (ly - 1 - i)) T g (c * 2 ^ W + s) =
    Rnd sb (lx + i) (2 ^ (ry - 1 - i)) (fun k => T ((c mod 2 ^ par) * 2 ^ (ry - 1 - i) + k)%nat) (fun s => g (c * 2 ^ W + s)%nat) s.
  Proof.
    intros Li EL EW HZ Hs. unfold Rnd. set (e := (ry - 1 - i)%nat). set (p := (lx + i)%nat).
    assert (Q : ((c * 2 ^ W + s) / 2 ^ S p = c * 2 ^ (e + rz) + s / 2 ^ S p)%nat).
    { rewrite mix_div_lo by (unfold p; lia). f_equal. f_equal. f_equal. unfold p, e. lia. }
    assert (B : Nat.testbit (c * 2 ^ W + s) p = Nat.testbit s p) by (apply mix_bit_lo; auto; unfold p; lia).
    assert (M : ((c * 2 ^ W + s) mod 2 ^ p = s mod 2 ^ p)%nat) by (apply mix_mod_lo; unfold p; lia).
    assert (LQ : (s / 2 ^ S p < 2 ^ (e + rz))%nat).
    { apply div_lt. replace (S p + (e + rz))%nat with W by (unfold p, e; lia). exact Hs. }
    assert (PW : (2 ^ W = 2 ^ (e + rz) * 2 ^ S p)%nat) by (rewrite <- Nat.pow_add_r; f_equal; unfold p, e; lia).
    rewrite Q, B, M. rewrite PW.
    assert (TK : ((c * 2 ^ (e + rz) + s / 2 ^ S p) mod 2 ^ (ly - 1 - i) = c mod 2 ^ par * 2 ^ e + (s / 2 ^ S p) mod 2 ^ e)%nat).
    { replace (ly - 1 - i)%nat with (e + par)%nat by (unfold e; lia). destruct HZ as [-> | ->].
      - rewrite Nat.add_0_r in *. rewrite mod_split, mix_div, mix_mod by auto. now rewrite (Nat.mod_small (s / 2 ^ S p)).
      - rewrite Nat.add_0_r. cbn [Nat.pow]. rewrite Nat.mod_1_r. apply mix_mod_lo. lia. }
    rewrite TK.
    replace ((c * 2 ^ (e + rz) + s / 2 ^ S p) * 2 ^ S p + s mod 2 ^ p)%nat
      with (c * (2 ^ (e + rz) * 2 ^ S p) + (s / 2 ^ S p * 2 ^ S p + s mod 2 ^ p))%nat by lia.
    replace ((c * 2 ^ (e + rz) + s / 2 ^ S p) * 2 ^ S p + 2 ^ p + s mod 2 ^ p)%nat
      with (c * (2 ^ (e + rz) * 2 ^ S p) + (s / 2 ^ S p * 2 ^ S p + 2 ^ p + s mod 2 ^ p))%nat by lia.
    reflexivity.
  Qed.

  Lemma Rs_chunk sb lx ly ry par rz W (T T' : nat -> nat -> F) c l : (ly = ry + par)%nat -> (lx + ry + rz = W)%nat ->
    (rz = 0 \/ par = 0)%nat -> (forall i, In i l -> (i < ry)%nat) ->
    (forall i k, (i < ry)%nat -> T' i k = T i ((c mod 2 ^ par) * 2 ^ (ry - 1 - i) + k)%nat) ->
    forall g s, (s < 2 ^ W)%nat ->
    Rs F sb lx ly T l g (c * 2 ^ W + s)%nat = Rs F sb lx ry T' l (fun s => g (c * 2 ^ W + s)%nat) s.
  Proof.
    intros EL EW HZ Hl HT. induction l as [|i l IH]; intros g s Hs; [reflexivity|].
    assert (Li : (i < ry)%nat) by (apply Hl; now left).
    change (Rs F sb lx ly T (i :: l) g) with (Rs F sb lx ly T l (Rnd sb (lx + i) (2 ^ (ly - 1 - i)) (T i) g)).
    rewrite IH by (auto; intros; apply Hl; now right).
    change (Rs F sb lx ry T' (i :: l) (fun s => g (c * 2 ^ W + s)%nat))
      with (Rs F sb lx ry T' l (Rnd sb (lx + i) (2 ^ (ry - 1 - i)) (T' i) (fun s => g (c * 2 ^ W + s)%nat))).
    apply (Rs_ext F _ _ _ _ _ W); auto.
    - intros i' Hi'. assert (i' < ry)%nat by (apply Hl; now right). lia.
    - intros s' Hs'. rewrite (Rnd_chunk sb lx ly ry par rz W (T i) g c s' i) by auto. unfold Rnd. now rewrite HT.
  Qed.

  Lemma sc_ext (D D' : list (list F)) ln : wfd lw D -> wfd lw D' -> length D = (2 ^ ln)%nat -> length D' = (2 ^ ln)%nat ->
    (forall s, (s < 2 ^ (ln + lw))%nat -> sc lw D s = sc lw D' s) -> D = D'.
  Proof.
    intros W W' L L' H. apply (nth_ext _ _ [] []); [congruence|]. intros m Hm.
    assert (LM : length (nth m D []) = (2 ^ lw)%nat) by now apply wfd_nth.
    assert (LM' : length (nth m D' []) = (2 ^ lw)%nat) by (apply wfd_nth; auto; lia).
    apply (nth_ext _ _ 0 0); [congruence|]. intros x Hx.
    assert (Hx' : (x < 2 ^ lw)%nat) by lia.
    pose proof (H (m * 2 ^ lw + x)%nat) as Q. rewrite !sc_at in Q by auto. apply Q. rewrite Nat.add_comm. rewrite (Nat.add_comm ln).
    rewrite (Nat.add_comm x). apply mix_lt; auto. lia.
  Qed.
End Proofs.
