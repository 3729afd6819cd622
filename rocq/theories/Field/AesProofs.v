Require Import Coq.Arith.Arith Coq.NArith.NArith Coq.Lists.List Coq.Bool.Bool Lia.
Require Import Verif.Base.Fld Verif.Base.Bits Verif.Field.Quad Verif.Field.TowerModel
  Verif.Field.TowerProofs Verif.Field.TowerBases Verif.Field.Tables Verif.Field.AesModel
  Verif.Field.TowerProps.
Import ListNotations.
Local Open Scope N_scope.

Definition below (n : nat) : list N := map N.of_nat (seq 0 n).

Lemma below_all n (P : N -> bool) : forallb P (below n) = true ->
  forall x, x < N.of_nat n -> P x = true.
Proof.
  intros H x Hx. rewrite forallb_forall in H. apply H. unfold below.
  apply in_map_iff. exists (N.to_nat x). split; [apply N2Nat.id|]. apply in_seq. lia.
Qed.

Lemma inr3 a : inr 3 a <-> a < N.of_nat 256.
Proof. unfold inr. reflexivity. Qed.

Ltac sweep n P :=
  let H := fresh in assert (H : forallb P (below n) = true) by (vm_compute; reflexivity);
  pose proof (below_all n P H).

Definition oeqb (o : option N) (x : N) : bool := match o with Some y => y =? x | None => false end.
Lemma oeqb_eq o x : oeqb o x = true -> o = Some x.
Proof. destruct o; cbn; [|discriminate]. intros H. apply N.eqb_eq in H. now subst. Qed.

Lemma mul_4b_ok a b : inr 2 a -> inr 2 b -> mul_4b a b = Some (tmul 2 a b).
Proof.
  intros Ha Hb.
  sweep 16%nat (fun x => forallb (fun y => oeqb (mul_4b x y) (tmul 2 x y)) (below 16)).
  specialize (H0 a Ha). cbv beta in H0. apply below_all with (x := b) in H0; [|exact Hb].
  now apply oeqb_eq.
Qed.

Lemma square_8b_ok a : inr 3 a -> square_8b_table a = Some (tsquare 3 a).
Proof. intros Ha. sweep 256%nat (fun x => oeqb (square_8b_table x) (tsquare 3 x)). now apply oeqb_eq, H0. Qed.
Lemma mul_alpha_8b_ok a : inr 3 a -> mul_alpha_8b_table a = Some (tmul_alpha 3 a).
Proof. intros Ha. sweep 256%nat (fun x => oeqb (mul_alpha_8b_table x) (tmul_alpha 3 x)). now apply oeqb_eq, H0. Qed.
Lemma invert_8b_ok a : inr 3 a -> invert_8b_table a = Some (tinv 3 a).
Proof. intros Ha. sweep 256%nat (fun x => oeqb (invert_8b_table x) (tinv 3 x)). now apply oeqb_eq, H0. Qed.

(** The exp/log argument, for a map [phi] into the tower field. *)
Section ExpLog.
  Variables (log exp : list N) (phi : N -> N).
  Hypothesis phi_inr : forall x, inr 3 x -> inr 3 (phi x).
  Hypothesis phi_0 : phi 0 = 0.
  Let e (i : nat) : N := get (tbl exp (N.of_nat i)).
  Let g := phi (e 1).
  Hypothesis exp_tot : forall i, (i < 255)%nat -> exists v, tbl exp (N.of_nat i) = Some v /\ inr 3 v.
  Hypothesis exp_0 : phi (e 0) = 1.
  Hypothesis exp_S : forall i, (i < 254)%nat -> phi (e (S i)) = tmul 3 (phi (e i)) g.
  Hypothesis exp_last : tmul 3 (phi (e 254)) g = 1.
  Hypothesis log_ok : forall x, inr 3 x -> x <> 0 ->
    exists l, tbl log x = Some (N.of_nat l) /\ (l < 255)%nat /\ e l = x.

  Let g_inr : inr 3 g.
  Proof.
    apply phi_inr. unfold e. destruct (exp_tot 1) as [v [E I]]; [lia|].
    rewrite E. exact I.
  Qed.

  Let pw (n : nat) := N.iter (N.of_nat n) (tmul 3 g) 1.

  Let pw_inr n : inr 3 (pw n).
  Proof. unfold pw. apply N.iter_invariant; auto using inr_1. intros; now apply tmul_inr. Qed.

  Let pw_S n : pw (S n) = tmul 3 g (pw n).
  Proof. unfold pw. now rewrite Nat2N.inj_succ, N.iter_succ. Qed.

  Let pw_add n m : pw (n + m) = tmul 3 (pw n) (pw m).
  Proof.
    induction n; [symmetry; now apply tmul_1_l|].
    cbn [Nat.add]. rewrite !pw_S, IHn. now apply tmul_assoc.
  Qed.

  Let exp_pw i : (i < 255)%nat -> phi (e i) = pw i.
  Proof.
    induction i; intros Hi; [exact exp_0|].
    rewrite exp_S, pw_S, IHi by lia. apply tmul_comm; auto.
  Qed.

  Let pw_255 : pw 255 = 1.
  Proof. rewrite (pw_S 254), <- exp_pw by lia. rewrite tmul_comm; auto. rewrite exp_pw by lia. auto. Qed.

  Lemma mul_log_ok a b : inr 3 a -> inr 3 b ->
    exists c, mul_8b_log log exp a b = Some c /\ inr 3 c /\ phi c = tmul 3 (phi a) (phi b).
  Proof.
    intros Ha Hb. unfold mul_8b_log.
    destruct (N.eqb_spec a 0) as [->|Hza]; cbn [negb andb].
    { exists 0. rewrite phi_0, tmul_0_l; auto using inr_0. }
    destruct (N.eqb_spec b 0) as [->|Hzb]; cbn [negb andb].
    { exists 0. rewrite phi_0, tmul_comm, tmul_0_l; auto using inr_0. }
    destruct (log_ok a Ha Hza) as [la [Ea [La Ta]]]. destruct (log_ok b Hb Hzb) as [lb [Eb [Lb Tb]]].
    rewrite Ea, Eb. rewrite <- Ta, <- Tb, (exp_pw la), (exp_pw lb) by auto. rewrite <- pw_add.
    destruct (N.ltb_spec 254 (N.of_nat la + N.of_nat lb)).
    - replace (N.of_nat la + N.of_nat lb - 255) with (N.of_nat (la + lb - 255)) by lia.
      destruct (exp_tot (la + lb - 255)) as [v [Ev Iv]]; [lia|]. exists v. repeat split; auto.
      transitivity (phi (e (la + lb - 255))); [unfold e; now rewrite Ev|].
      rewrite exp_pw by lia.
      replace (la + lb)%nat with (255 + (la + lb - 255))%nat at 2 by lia.
      rewrite pw_add, pw_255. symmetry. now apply tmul_1_l.
    - replace (N.of_nat la + N.of_nat lb) with (N.of_nat (la + lb)) by lia.
      destruct (exp_tot (la + lb)) as [v [Ev Iv]]; [lia|]. exists v. repeat split; auto.
      transitivity (phi (e (la + lb))); [unfold e; now rewrite Ev|]. now rewrite exp_pw by lia.
  Qed.
End ExpLog.

Lemma below_nat_all n (P : nat -> bool) : forallb P (seq 0 n) = true ->
  forall x, (x < n)%nat -> P x = true.
Proof. intros H x Hx. rewrite forallb_forall in H. apply H. apply in_seq. lia. Qed.

Lemma tbl_small t : forallb (fun x => x <? 256) t = true -> length t = 256%nat ->
  forall i, (i < 256)%nat -> exists v, tbl t (N.of_nat i) = Some v /\ inr 3 v.
Proof.
  intros H L i Hi. unfold tbl. rewrite Nat2N.id.
  destruct (nth_error t i) as [v|] eqn:E.
  - exists v. split; auto. rewrite forallb_forall in H. apply inr3.
    apply N.ltb_lt. apply H. now apply nth_error_In in E.
  - apply nth_error_None in E. lia.
Qed.

Lemma tbl_small' t : forallb (fun x => x <? 256) t = true -> length t = 256%nat ->
  forall i, inr 3 i -> exists v, tbl t i = Some v /\ inr 3 v.
Proof.
  intros H L i Hi. rewrite <- (N2Nat.id i). apply tbl_small; auto. pose proof (proj1 (inr3 i) Hi). lia.
Qed.

Definition log_check (log exp : list N) (x : N) : bool :=
  match tbl log x with
  | None => false
  | Some l => (l <? 255) && ((x =? 0) || oeqb (tbl exp l) x)
  end.

Lemma log_check_ok log exp : (forall x, x < N.of_nat 256 -> log_check log exp x = true) ->
  forall x, inr 3 x -> x <> 0 ->
    exists l, tbl log x = Some (N.of_nat l) /\ (l < 255)%nat /\ get (tbl exp (N.of_nat l)) = x.
Proof.
  intros H x Hx Hz. specialize (H x (proj1 (inr3 x) Hx)). unfold log_check in H.
  destruct (tbl log x) as [l|]; [|discriminate].
  apply andb_prop in H. destruct H as [L E]. apply N.ltb_lt in L.
  exists (N.to_nat l). rewrite N2Nat.id. repeat split; [lia|].
  apply orb_prop in E. destruct E as [E|E]; [apply N.eqb_eq in E; lia|].
  apply oeqb_eq in E. now rewrite E.
Qed.

Lemma mul_8b_ok a b : inr 3 a -> inr 3 b -> mul_8b_table a b = Some (tmul 3 a b).
Proof.
  intros Ha Hb.
  assert (X : exists c, mul_8b_log LOG_TABLE EXP_TABLE a b = Some c /\ inr 3 c /\ (fun x => x) c = tmul 3 a b).
  2:{ destruct X as [c [E [_ C]]]. unfold mul_8b_table. rewrite E, <- C. reflexivity. }
  apply (mul_log_ok LOG_TABLE EXP_TABLE (fun x => x)); auto.
  - intros i Hi. apply tbl_small; [vm_compute; reflexivity|reflexivity|lia].
  - assert (S : forallb (fun i => get (tbl EXP_TABLE (N.of_nat (S i))) =?
        tmul 3 (get (tbl EXP_TABLE (N.of_nat i))) (get (tbl EXP_TABLE 1))) (seq 0 254) = true)
      by (vm_compute; reflexivity).
    intros i Hi. apply N.eqb_eq. now apply (below_nat_all _ _ S).
  - apply log_check_ok.
    sweep 256%nat (log_check LOG_TABLE EXP_TABLE). auto.
Qed.

Lemma linear_transform_lin bases a b :
  linear_transform bases (tadd a b) = tadd (linear_transform bases a) (linear_transform bases b).
Proof.
  unfold linear_transform.
  assert (G : forall l x y, fold_left (fun acc '(i, b0) => tadd acc (if N.testbit (tadd a b) (N.of_nat i) then b0 else 0)) l (tadd x y) =
    tadd (fold_left (fun acc '(i, b0) => tadd acc (if N.testbit a (N.of_nat i) then b0 else 0)) l x)
      (fold_left (fun acc '(i, b0) => tadd acc (if N.testbit b (N.of_nat i) then b0 else 0)) l y)).
  { induction l as [|[i c] l IH]; intros x y; cbn [fold_left]; auto.
    rewrite <- IH. f_equal. unfold tadd. rewrite N.lxor_spec.
    apply N.bits_inj. intros r. rewrite !N.lxor_spec.
    destruct (N.testbit a (N.of_nat i)), (N.testbit b (N.of_nat i)); cbn;
      rewrite ?N.bits_0; destruct (N.testbit x r), (N.testbit y r), (N.testbit c r); reflexivity. }
  apply (G _ 0 0).
Qed.

Lemma a2b_lin a b : aes_to_bin_8b (tadd a b) = tadd (aes_to_bin_8b a) (aes_to_bin_8b b).
Proof. apply linear_transform_lin. Qed.
Lemma b2a_lin a b : bin_to_aes_8b (tadd a b) = tadd (bin_to_aes_8b a) (bin_to_aes_8b b).
Proof. apply linear_transform_lin. Qed.

Lemma a2b_inr a : inr 3 a -> inr 3 (aes_to_bin_8b a).
Proof.
  intros Ha. sweep 256%nat (fun x => aes_to_bin_8b x <? 256).
  apply N.ltb_lt. now apply H0.
Qed.
Lemma b2a_inr a : inr 3 a -> inr 3 (bin_to_aes_8b a).
Proof.
  intros Ha. sweep 256%nat (fun x => bin_to_aes_8b x <? 256).
  apply N.ltb_lt. now apply H0.
Qed.
Lemma b2a_a2b a : inr 3 a -> bin_to_aes_8b (aes_to_bin_8b a) = a.
Proof.
  intros Ha. sweep 256%nat (fun x => bin_to_aes_8b (aes_to_bin_8b x) =? x).
  apply N.eqb_eq. now apply H0.
Qed.
Lemma a2b_b2a a : inr 3 a -> aes_to_bin_8b (bin_to_aes_8b a) = a.
Proof.
  intros Ha. sweep 256%nat (fun x => aes_to_bin_8b (bin_to_aes_8b x) =? x).
  apply N.eqb_eq. now apply H0.
Qed.

Lemma aes_mul_8b_ok a b : inr 3 a -> inr 3 b ->
  exists c, aes_mul_8b a b = Some c /\ inr 3 c /\
    aes_to_bin_8b c = tmul 3 (aes_to_bin_8b a) (aes_to_bin_8b b).
Proof.
  apply mul_log_ok; auto using a2b_inr.
  - intros i Hi. apply tbl_small; [vm_compute; reflexivity|reflexivity|lia].
  - assert (S : forallb (fun i => aes_to_bin_8b (get (tbl AES_EXP_TABLE (N.of_nat (S i)))) =?
        tmul 3 (aes_to_bin_8b (get (tbl AES_EXP_TABLE (N.of_nat i))))
          (aes_to_bin_8b (get (tbl AES_EXP_TABLE 1)))) (seq 0 254) = true)
      by (vm_compute; reflexivity).
    intros i Hi. apply N.eqb_eq. now apply (below_nat_all _ _ S).
  - apply log_check_ok.
    sweep 256%nat (log_check AES_LOG_TABLE AES_EXP_TABLE). auto.
Qed.

Lemma aes_unary_ok t f : forallb (fun x => x <? 256) t = true -> length t = 256%nat ->
  forallb (fun x => aes_to_bin_8b (get (tbl t x)) =? f (aes_to_bin_8b x)) (below 256) = true ->
  forall a, inr 3 a -> exists c, tbl t a = Some c /\ inr 3 c /\ aes_to_bin_8b c = f (aes_to_bin_8b a).
Proof.
  intros H1 H2 H a Ha. destruct (tbl_small' t H1 H2 a Ha) as [c [E I]].
  exists c. repeat split; auto. apply below_all with (x := a) in H; [|now apply inr3].
  rewrite E in H. now apply N.eqb_eq in H.
Qed.

Lemma aes_square_8b_ok a : inr 3 a -> exists c, aes_square_8b a = Some c /\ inr 3 c /\
  aes_to_bin_8b c = tsquare 3 (aes_to_bin_8b a).
Proof. apply aes_unary_ok; vm_compute; reflexivity. Qed.
Lemma aes_mul_alpha_8b_ok a : inr 3 a -> exists c, aes_mul_alpha_8b a = Some c /\ inr 3 c /\
  aes_to_bin_8b c = tmul_alpha 3 (aes_to_bin_8b a).
Proof. apply aes_unary_ok; vm_compute; reflexivity. Qed.
Lemma aes_invert_8b_ok a : inr 3 a -> exists c, aes_invert_8b a = Some c /\ inr 3 c /\
  aes_to_bin_8b c = tinv 3 (aes_to_bin_8b a).
Proof. apply aes_unary_ok; vm_compute; reflexivity. Qed.

(** * Lifting to the higher levels *)
Lemma a2b_map_inr d a : inr (d + 3) a -> inr (d + 3) (aes_to_bin d a).
Proof. apply tmap_lanes_inr. apply a2b_inr. Qed.
Lemma b2a_map_inr d a : inr (d + 3) a -> inr (d + 3) (bin_to_aes d a).
Proof. apply tmap_lanes_inr. apply b2a_inr. Qed.

Lemma a2b_map_lin : forall d a b, 
  aes_to_bin d (tadd a b) = tadd (aes_to_bin d a) (aes_to_bin d b).
Proof.
  unfold aes_to_bin.
  induction d; intros a b; cbn [tmap_lanes]; [apply a2b_lin|].
  unfold tadd at 1 2. rewrite lo_xor, hi_xor.
  unfold tadd in *. rewrite !IHd. symmetry. apply join_xor;
  apply tmap_lanes_inr; auto using a2b_inr, lo_inr.
Qed.

Lemma map_lanes_inv f g d j : (forall x, inr j x -> inr j (f x)) -> (forall x, inr j x -> g (f x) = x) ->
  forall a, inr (d + j) a -> tmap_lanes g d j (tmap_lanes f d j a) = a.
Proof.
  intros Hf Hg. induction d; intros a Ha; cbn [tmap_lanes]; [now apply Hg|].
  pose proof (lo_inr (d + j) a). pose proof (hi_inr (d + j) a).
  assert (I1 := tmap_lanes_inr f d j _ Hf H). assert (I2 := tmap_lanes_inr f d j _ Hf H0).
  rewrite lo_join, hi_join by auto. rewrite !IHd by auto. now apply join_lo_hi.
Qed.

Lemma a2b_join d a b : inr (d + 3) a -> inr (d + 3) b ->
  aes_to_bin (S d) (join (d + 3) a b) = join (d + 3) (aes_to_bin d a) (aes_to_bin d b).
Proof. intros. unfold aes_to_bin. cbn [tmap_lanes]. now rewrite lo_join, hi_join. Qed.

Lemma a2b_lo d a : lo (d + 3) (aes_to_bin (S d) a) = aes_to_bin d (lo (d + 3) a).
Proof.
  unfold aes_to_bin. cbn [tmap_lanes]. apply lo_join; apply tmap_lanes_inr; auto using a2b_inr, lo_inr, hi_inr.
Qed.
Lemma a2b_hi d a : hi (d + 3) (aes_to_bin (S d) a) = aes_to_bin d (hi (d + 3) a).
Proof.
  unfold aes_to_bin. cbn [tmap_lanes]. apply hi_join; apply tmap_lanes_inr; auto using a2b_inr, lo_inr, hi_inr.
Qed.

Lemma amul_alpha_ok : forall d a, inr (d + 3) a ->
  inr (d + 3) (amul_alpha d a) /\ aes_to_bin d (amul_alpha d a) = tmul_alpha (d + 3) (aes_to_bin d a).
Proof.
  induction d; intros a Ha.
  - destruct (aes_mul_alpha_8b_ok a Ha) as [c [E [I C]]]. cbn [amul_alpha]. rewrite E. auto.
  - cbn [amul_alpha]. pose proof (lo_inr (d + 3) a). pose proof (hi_inr (d + 3) a).
    destruct (IHd _ H0) as [I E]. cbn [Nat.add].
    split; [apply join_inr; auto using tadd_inr|].
    rewrite a2b_join by auto using tadd_inr. cbn [tmul_alpha].
    now rewrite a2b_lo, a2b_hi, a2b_map_lin, E.
Qed.

Lemma amul_ok : forall d a b, inr (d + 3) a -> inr (d + 3) b ->
  inr (d + 3) (amul d a b) /\
  aes_to_bin d (amul d a b) = tmul (d + 3) (aes_to_bin d a) (aes_to_bin d b).
Proof.
  induction d; intros a b Ha Hb.
  - destruct (aes_mul_8b_ok a b Ha Hb) as [c [E [I C]]]. cbn [amul]. rewrite E. auto.
  - cbn [amul]. 
    pose proof (lo_inr (d + 3) a). pose proof (hi_inr (d + 3) a).
    pose proof (lo_inr (d + 3) b). pose proof (hi_inr (d + 3) b).
    destruct (IHd (lo (d + 3) a) (lo (d + 3) b)) as [I0 E0]; auto.
    destruct (IHd (hi (d + 3) a) (hi (d + 3) b)) as [I2 E2]; auto.
    destruct (IHd (tadd (lo (d + 3) a) (hi (d + 3) a)) (tadd (lo (d + 3) b) (hi (d + 3) b))) as [I1 E1];
      auto using tadd_inr.
    destruct (amul_alpha_ok d _ I2) as [IA EA].
    change tsub with tadd.
    cbn [Nat.add]. split; [apply join_inr; auto using tadd_inr|].
    rewrite a2b_join by auto using tadd_inr. cbn [tmul]. change tsub with tadd.
    rewrite !a2b_lo, !a2b_hi, !a2b_map_lin, EA, E0, E1, E2, !a2b_map_lin. reflexivity.
Qed.

Lemma asquare_ok : forall d a, inr (d + 3) a ->
  inr (d + 3) (asquare d a) /\ aes_to_bin d (asquare d a) = tsquare (d + 3) (aes_to_bin d a).
Proof.
  induction d; intros a Ha.
  - destruct (aes_square_8b_ok a Ha) as [c [E [I C]]]. cbn [asquare]. rewrite E. auto.
  - cbn [asquare]. pose proof (lo_inr (d + 3) a). pose proof (hi_inr (d + 3) a).
    destruct (IHd _ H) as [I0 E0]. destruct (IHd _ H0) as [I2 E2].
    destruct (amul_alpha_ok d _ I2) as [IA EA].
    cbn [Nat.add]. split; [apply join_inr; auto using tadd_inr|].
    rewrite a2b_join by auto using tadd_inr. cbn [tsquare].
    now rewrite a2b_lo, a2b_hi, a2b_map_lin, EA, E0, E2.
Qed.

Lemma ainv_ok : forall d a, inr (d + 3) a ->
  inr (d + 3) (ainv d a) /\ aes_to_bin d (ainv d a) = tinv (d + 3) (aes_to_bin d a).
Proof.
  induction d; intros a Ha.
  - destruct (aes_invert_8b_ok a Ha) as [c [E [I C]]]. cbn [ainv]. rewrite E. auto.
  - cbn [ainv]. pose proof (lo_inr (d + 3) a) as Hl. pose proof (hi_inr (d + 3) a) as Hh.
    set (a0 := lo (d + 3) a) in *. set (a1 := hi (d + 3) a) in *.
    destruct (amul_alpha_ok d a1 Hh) as [IA EA].
    set (z := tadd a0 (amul_alpha d a1)).
    assert (Iz : inr (d + 3) z) by now apply tadd_inr.
    destruct (amul_ok d a0 z) as [I1 E1]; auto.
    destruct (asquare_ok d a1) as [I2 E2]; auto.
    destruct (IHd (tadd (amul d a0 z) (asquare d a1))) as [I3 E3]; [now apply tadd_inr|].
    set (di := ainv d (tadd (amul d a0 z) (asquare d a1))) in *.
    destruct (amul_ok d di z) as [I4 E4]; auto.
    destruct (amul_ok d di a1) as [I5 E5]; auto.
    cbn [Nat.add]. split; [apply join_inr; auto|].
    rewrite a2b_join by auto. cbn [tinv]. rewrite a2b_lo, a2b_hi. fold a0 a1.
    assert (Ez : aes_to_bin d z = tadd (aes_to_bin d a0) (tmul_alpha (d + 3) (aes_to_bin d a1)))
      by (unfold z; now rewrite a2b_map_lin, EA).
    rewrite E4, E5, E3, a2b_map_lin, E1, E2, Ez. reflexivity.
Qed.
