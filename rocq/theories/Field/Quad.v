(** Quadratic extension F[X]/(X^2 + alpha X + 1) of a finite field of characteristic two, and
    the Artin-Schreier trace argument that makes it a field again.  Pure mathematics used by
    Field/TowerProofs.v; nothing here models code. *)
Require Import Coq.setoid_ring.Ring Coq.Arith.PeanoNat Coq.micromega.Lia.
Require Import Verif.Base.Fld.

Fixpoint iter_sq (F : field) (n : nat) (x : F) : F :=
  match n with O => x | S n => iter_sq F n (fmul x x) end.

(** Absolute trace: sum of the first n Frobenius conjugates. *)
Fixpoint tr (F : field) (n : nat) (x : F) : F :=
  match n with O => f0 | S n => fadd x (tr F n (fmul x x)) end.

Section Sq.
  Variable F : field.
  Hypothesis H2 : char2 F.
  Local Open Scope fld_scope.
  Add Ring Fr : (f_ring F) (morphism (char2_morph F H2), constants [fcst]).

  Lemma iter_sq_add n (x y : F) : iter_sq F n (x + y) = iter_sq F n x + iter_sq F n y.
  Proof.
    revert x y; induction n; simpl; intros; auto.
    rewrite <- IHn. f_equal. ring.
  Qed.

  Lemma iter_sq_mul n (x y : F) : iter_sq F n (x * y) = iter_sq F n x * iter_sq F n y.
  Proof. revert x y; induction n; simpl; intros; auto. rewrite <- IHn. f_equal. ring. Qed.

  Lemma iter_sq_comp n m (x : F) : iter_sq F (n + m) x = iter_sq F m (iter_sq F n x).
  Proof. revert x; induction n; simpl; intros; auto. Qed.

  Lemma iter_sq_0 n : iter_sq F n 0 = 0.
  Proof. induction n; simpl; auto. replace (0*0) with (@f0 F) by ring. auto. Qed.

  Lemma iter_sq_1 n : iter_sq F n 1 = 1.
  Proof. induction n; simpl; auto. replace (1*1) with (@f1 F) by ring. auto. Qed.

  Lemma iter_sq_pow n (x : F) : iter_sq F n x = fpow x (2 ^ n).
  Proof.
    revert x; induction n; simpl; intros; [ring|].
    rewrite IHn, fpow_mul_l. replace (2 ^ n + (2 ^ n + 0))%nat with (2^n + 2^n)%nat by lia.
    now rewrite fpow_add.
  Qed.

  Lemma tr_add n (x y : F) : tr F n (x + y) = tr F n x + tr F n y.
  Proof.
    revert x y; induction n; simpl; intros; [ring|].
    replace ((x+y)*(x+y)) with (x*x+y*y) by ring. rewrite IHn. ring.
  Qed.

  Lemma tr_0 n : tr F n 0 = 0.
  Proof. induction n; simpl; auto. replace (0*0) with (@f0 F) by ring. rewrite IHn. ring. Qed.

  Lemma tr_sq n (x : F) : iter_sq F n x = x -> tr F n (x * x) = tr F n x.
  Proof.
    intros H.
    assert (G : forall n x, tr F n (x*x) = tr F n x + x + iter_sq F n x).
    { clear - H2. induction n; simpl; intros; [ring|]. rewrite IHn. ring. }
    rewrite G, H. ring.
  Qed.

  (** y^2 = y + c  implies  y^(2^n) = y + Tr_n c. *)
  Lemma artin_schreier n (y c : F) : y * y = y + c -> iter_sq F n y = y + tr F n c.
  Proof.
    revert y c; induction n; simpl; intros y c H; [ring|].
    rewrite (IHn (y*y) (c*c)).
    - rewrite H. ring.
    - rewrite H. replace ((y+c)*(y+c)) with (y*y+c*c) by ring. rewrite H. ring.
  Qed.
End Sq.

(** A stage of the tower: a finite field with 2^n elements worth of Frobenius data and the element
    alpha used to build the next level. *)
Record stage := mkStage {
  st_F : field;
  st_2 : char2 st_F;
  st_a : st_F;
  st_n : nat;
  st_frob : forall x, iter_sq st_F st_n x = x;
  st_tr : tr st_F st_n st_a = f1;
  st_tri : tr st_F st_n (finv st_a) = f1
}.

Section Quad.
  Variable S : stage.
  Let F := st_F S.
  Let H2 : char2 F := st_2 S.
  Let al : F := st_a S.
  Let n := st_n S.
  Local Open Scope fld_scope.
  Add Ring Fr2 : (f_ring F) (morphism (char2_morph F H2), constants [fcst]).

  Definition q0 : F * F := (0, 0).
  Definition q1 : F * F := (1, 0).
  Definition qadd (x y : F * F) : F * F := (fst x + fst y, snd x + snd y).
  (* schoolbook product modulo X^2 = alpha X + 1 *)
  Definition qmul (x y : F * F) : F * F :=
    (fst x * fst y + snd x * snd y,
     fst x * snd y + snd x * fst y + snd x * snd y * al).
  Definition qnorm (x : F * F) : F :=
    fst x * fst x + al * fst x * snd x + snd x * snd x.
  Definition qinv (x : F * F) : F * F :=
    let d := finv (qnorm x) in (d * (fst x + al * snd x), d * snd x).
  Definition qeqb (x y : F * F) : bool := (feqb (fst x) (fst y) && feqb (snd x) (snd y))%bool.
  Definition qX : F * F := (0, 1).

  Lemma al_neq0 : al <> 0.
  Proof.
    intros E. assert (X := st_tr S). fold al in X. fold F n in X. rewrite E in X.
    rewrite (tr_0 F H2) in X. symmetry in X. now apply f_10 in X.
  Qed.

  Lemma quad_ring : ring_theory q0 q1 qadd qmul qadd (fun x => x) (@eq (F * F)).
  Proof.
    constructor; try intros [a1 b1]; try intros [a2 b2]; try intros [a3 b3];
      unfold q0, q1, qadd, qmul; simpl; f_equal; ring.
  Qed.

  Lemma qnorm_neq0 x : x <> q0 -> qnorm x <> 0.
  Proof.
    destruct x as [a b]. intros Hx HN. unfold qnorm in HN; simpl in HN.
    destruct (feq_dec F b 0) as [E|E].
    - subst b. assert (a * a = 0) by (rewrite <- HN; ring).
      apply fmul_eq0 in H. apply Hx. unfold q0. f_equal. tauto.
    - set (ib := finv b) in *. assert (Eb : ib * b = 1) by now apply f_inv_l.
      set (ia := finv al). assert (Ea : ia * al = 1) by apply f_inv_l, al_neq0.
      set (z := ia * ib * a).
      assert (Z : z * z = z + ia * ia).
      { assert (Y : (ia*ib)*(ia*ib)*(a * a + al * a * b + b * b) = 0) by (rewrite HN; ring).
        apply char2_add_eq0; auto. rewrite <- Y.
        replace (ia * ib * (ia * ib) * (a * a + al * a * b + b * b))
          with ((ia*ib*a)*(ia*ib*a) + (ia*ib*a)*(ia*al)*(ib*b) + (ia*ia)*((ib*b)*(ib*b))) by ring.
        rewrite Ea, Eb. unfold z. ring. }
      apply (artin_schreier F H2 n) in Z.
      assert (Q := st_frob S z). fold F n in Q. rewrite Q in Z.
      rewrite (tr_sq F H2 n ia) in Z by apply (st_frob S).
      assert (Ti := st_tri S). fold F n al ia in Ti. rewrite Ti in Z.
      apply (f_10 F). apply (fadd_cancel_l F z). rewrite <- Z. ring.
  Qed.

  Lemma qinv_l x : x <> q0 -> qmul (qinv x) x = q1.
  Proof.
    intros Hx. assert (HN := qnorm_neq0 x Hx). destruct x as [a b].
    unfold qinv, qmul, q1; simpl.
    assert (D : finv (qnorm (a,b)) * qnorm (a,b) = 1) by now apply f_inv_l.
    set (d := finv (qnorm (a,b))) in *. unfold qnorm in D; simpl in D.
    f_equal.
    - rewrite <- D. ring.
    - ring.
  Qed.

  Definition quad_field : field.
  Proof.
    refine (mkField (F * F) q0 q1 qadd qmul qadd (fun x => x) qinv qeqb quad_ring _ qinv_l _ _).
    - unfold q0, q1. intros E. inversion E. now apply (f_10 F).
    - unfold qinv, q0; simpl. f_equal; ring.
    - intros [a b] [c d]. unfold qeqb; simpl. rewrite Bool.andb_true_iff, !f_eqb.
      split; [intros [-> ->]; auto | intros E; inversion E; auto].
  Defined.

  Lemma quad_char2 : char2 quad_field.
  Proof. unfold char2; simpl. unfold qadd, q0; simpl. f_equal; ring. Qed.

  Let K := quad_field.

  Definition qconj (x : F * F) : F * F := (fst x + al * snd x, snd x).

  Definition emb (a : F) : K := (a, 0).

  Lemma iter_sq_emb m a : iter_sq K m (emb a) = emb (iter_sq F m a).
  Proof.
    revert a; induction m; simpl; intros; auto. rewrite <- IHm. f_equal.
    unfold emb, qmul; simpl. f_equal; ring.
  Qed.

  Lemma tr_emb m a : tr K m (emb a) = emb (tr F m a).
  Proof.
    revert a; induction m; simpl; intros; auto.
    replace (qmul (emb a) (emb a)) with (emb (a*a)) by (unfold emb, qmul; simpl; f_equal; ring).
    rewrite IHm. unfold emb, qadd; simpl. f_equal; ring.
  Qed.

  Lemma frob_half (x : K) : iter_sq K n x = qconj x.
  Proof.
    set (ia := finv al). assert (Ea : ia * al = 1) by apply f_inv_l, al_neq0.
    (* y = X / alpha satisfies y^2 = y + 1/alpha^2 *)
    set (y := (0, ia) : K).
    assert (Y : fmul y y = fadd y (emb (ia*ia))).
    { unfold y, emb; simpl. unfold qmul, qadd; simpl. f_equal; [ring|].
      replace (0 * ia + ia * 0 + ia * ia * al) with (ia * (ia * al)) by ring. rewrite Ea. ring. }
    assert (Yn := artin_schreier K quad_char2 n y _ Y).
    rewrite tr_emb in Yn.
    rewrite (tr_sq F H2 n ia) in Yn by apply (st_frob S).
    assert (Ti := st_tri S). fold F n al ia in Ti. rewrite Ti in Yn.
    destruct x as [a b].
    assert (D : ((a, b) : K) = fadd (emb a) (fmul (emb (al * b)) y)).
    { unfold emb, y; simpl. unfold qadd, qmul; simpl. f_equal; [ring|].
      replace (0 + (al*b*ia + 0*0 + 0*ia*al)) with (ia*al*b) by ring. rewrite Ea. ring. }
    rewrite D at 1. rewrite iter_sq_add, iter_sq_mul by apply quad_char2.
    rewrite !iter_sq_emb, Yn. unfold n, F. rewrite !(st_frob S). fold F.
    unfold emb, qconj, y; simpl. unfold qadd, qmul; simpl. f_equal; [ring|].
    replace (0 + (al * b * (ia+0) + 0*(0+1) + 0*(ia+0)*al)) with (ia*al*b) by ring. rewrite Ea. ring.
  Qed.

  Lemma quad_frob (x : K) : iter_sq K (n + n) x = x.
  Proof.
    rewrite iter_sq_comp, !frob_half. destruct x as [a b]. unfold qconj; simpl. f_equal; ring.
  Qed.

  Lemma tr_split (G : field) (HG : char2 G) m1 m2 (x : G) :
    tr G (m1 + m2) x = fadd (tr G m1 x) (tr G m2 (iter_sq G m1 x)).
  Proof.
    revert x; induction m1; simpl; intros x.
    - now rewrite (Radd_0_l (f_ring G)).
    - rewrite IHm1. now rewrite (Radd_assoc (f_ring G)).
  Qed.

  (* trace of x equals trace from below of x + conj x = alpha * snd x *)
  Lemma quad_tr (x : K) : tr K (n + n) x = emb (tr F n (al * snd x)).
  Proof.
    rewrite tr_split by apply quad_char2. rewrite frob_half, <- tr_add by apply quad_char2.
    rewrite <- tr_emb. f_equal. destruct x as [a b]; simpl. unfold qadd, emb; simpl. f_equal; ring.
  Qed.

  Definition next_stage : stage.
  Proof.
    refine (mkStage quad_field quad_char2 qX (n + n) quad_frob _ _).
    - change (tr K (n + n) (qX : K) = emb 1). rewrite (quad_tr qX). unfold qX. simpl snd. replace (al * 1) with al by ring.
      assert (T := st_tr S). fold F n al in T. rewrite T. reflexivity.
    - change (tr K (n + n) (finv (qX : K)) = emb 1). rewrite (quad_tr (finv (qX : K))). simpl snd. unfold qnorm; simpl.
      replace (0 * 0 + al * 0 * 1 + 1 * 1) with (@f1 F) by ring. rewrite (finv_1 F).
      replace (al * (1 * 1)) with al by ring.
      assert (T := st_tr S). fold F n al in T. rewrite T. reflexivity.
  Defined.
End Quad.

(** GF(2). *)
Definition gf2 : field.
Proof.
  refine (mkField bool false true xorb andb xorb (fun x => x) (fun x => x) Bool.eqb bool_ring _ _ _ _).
  - discriminate.
  - intros [|]; simpl; congruence.
  - reflexivity.
  - apply Bool.eqb_true_iff.
Defined.

Lemma gf2_char2 : char2 gf2.
Proof. reflexivity. Qed.

Definition stage0 : stage.
Proof.
  refine (mkStage gf2 gf2_char2 true 1 _ eq_refl eq_refl).
  intros [|]; reflexivity.
Defined.

Fixpoint stage_at (k : nat) : stage :=
  match k with O => stage0 | S k => next_stage (stage_at k) end.

Lemma stage_n k : st_n (stage_at k) = 2 ^ k.
Proof. induction k; simpl; auto. rewrite IHk. lia. Qed.
