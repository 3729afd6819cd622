(** Fields: the algebraic interface the generic Rust code relies on.

    Models the trait [Field] of crates/field/src/field.rs (lines 17-100): constants ZERO and ONE,
    Add, Sub, Mul, Neg (as [x - y]), [invert_or_zero] (crates/field/src/arithmetic_traits.rs) and
    decidable equality.  The record carries the field laws; the tower fields are shown to be
    instances in Field/TowerProofs.v, so theorems quantified over [field] are about them. *)
Require Import Coq.setoid_ring.Ring Coq.setoid_ring.Ring_theory Coq.setoid_ring.Field_theory.
Require Import Coq.Bool.Bool Coq.Lists.List Coq.Arith.PeanoNat Coq.micromega.Lia.
Import ListNotations.

Record field : Type := mkField {
  car :> Type;
  f0 : car;
  f1 : car;
  fadd : car -> car -> car;
  fmul : car -> car -> car;
  fsub : car -> car -> car;
  fopp : car -> car;
  finv : car -> car;
  feqb : car -> car -> bool;
  f_ring : ring_theory f0 f1 fadd fmul fsub fopp (@eq car);
  f_10 : f1 <> f0;
  f_inv_l : forall x, x <> f0 -> fmul (finv x) x = f1;
  f_inv_0 : finv f0 = f0;
  f_eqb : forall x y, feqb x y = true <-> x = y
}.

Arguments f0 {_}.
Arguments f1 {_}.
Arguments fadd {_} _ _.
Arguments fmul {_} _ _.
Arguments fsub {_} _ _.
Arguments fopp {_} _.
Arguments finv {_} _.
Arguments feqb {_} _ _.

Declare Scope fld_scope.
Delimit Scope fld_scope with F.
Notation "0" := f0 : fld_scope.
Notation "1" := f1 : fld_scope.
Notation "x + y" := (fadd x y) : fld_scope.
Notation "x * y" := (fmul x y) : fld_scope.
Notation "x - y" := (fsub x y) : fld_scope.
Notation "- x" := (fopp x) : fld_scope.

(** Characteristic two, as in every field of the code base
    (crates/field/src/binary_field.rs line 318, [CHARACTERISTIC = 2]). *)
Definition char2 (F : field) : Prop := (f1 + f1 = (f0 : F))%F.

Section FieldFacts.
  Variable F : field.
  Local Open Scope fld_scope.
  Add Ring Fring : (f_ring F).

  Lemma feqb_refl (x : F) : feqb x x = true.
  Proof. now apply f_eqb. Qed.

  Lemma feqb_false (x y : F) : feqb x y = false <-> x <> y.
  Proof.
    split; intros H.
    - intros E. apply f_eqb in E. congruence.
    - destruct (feqb x y) eqn:E; auto. apply f_eqb in E. contradiction.
  Qed.

  Lemma feq_dec (x y : F) : {x = y} + {x <> y}.
  Proof.
    destruct (feqb x y) eqn:E; [left; now apply f_eqb | right; now apply feqb_false].
  Defined.

  Lemma feqb_spec (x y : F) : reflect (x = y) (feqb x y).
  Proof. destruct (feqb x y) eqn:E; constructor; [now apply f_eqb | now apply feqb_false]. Qed.

  Lemma f_inv_r (x : F) : x <> 0 -> x * finv x = 1.
  Proof. intros H. rewrite <- (f_inv_l F x H). ring. Qed.

  Lemma fmul_eq0 (x y : F) : x * y = 0 -> x = 0 \/ y = 0.
  Proof.
    intros H. destruct (feq_dec x 0) as [E|E]; auto. right.
    replace y with (finv x * (x * y)); [rewrite H; ring|].
    replace (finv x * (x * y)) with (finv x * x * y) by ring.
    rewrite f_inv_l by auto. ring.
  Qed.

  Lemma fmul_neq0 (x y : F) : x <> 0 -> y <> 0 -> x * y <> 0.
  Proof. intros Hx Hy H. apply fmul_eq0 in H. tauto. Qed.

  Lemma fmul_cancel_l (x y z : F) : x <> 0 -> x * y = x * z -> y = z.
  Proof.
    intros Hx H.
    replace y with (finv x * x * y) by (rewrite f_inv_l by auto; ring).
    replace (finv x * x * y) with (finv x * (x * y)) by ring.
    rewrite H. replace (finv x * (x * z)) with (finv x * x * z) by ring.
    rewrite f_inv_l by auto. ring.
  Qed.

  Lemma finv_neq0 (x : F) : x <> 0 -> finv x <> 0.
  Proof.
    intros H E. assert (X := f_inv_l F x H). rewrite E in X.
    apply (f_10 F). rewrite <- X. ring.
  Qed.

  Lemma finv_unique (x y : F) : x * y = 1 -> y = finv x.
  Proof.
    intros H. assert (Hx : x <> 0).
    { intros E. subst x. apply (f_10 F). rewrite <- H. ring. }
    apply (fmul_cancel_l x); auto. rewrite H, f_inv_r; auto.
  Qed.

  Lemma finv_mul (x y : F) : finv (x * y) = finv x * finv y.
  Proof.
    destruct (feq_dec x 0) as [E|E]; [subst; replace (0*y) with (@f0 F) by ring; rewrite !f_inv_0; ring|].
    destruct (feq_dec y 0) as [E'|E']; [subst; replace (x*0) with (@f0 F) by ring; rewrite !f_inv_0; ring|].
    symmetry. apply finv_unique.
    replace (x * y * (finv x * finv y)) with ((x * finv x) * (y * finv y)) by ring.
    rewrite !f_inv_r by auto. ring.
  Qed.

  Lemma finv_finv (x : F) : finv (finv x) = x.
  Proof.
    destruct (feq_dec x 0) as [E|E]; [subst; now rewrite !f_inv_0|].
    symmetry. apply finv_unique. now apply f_inv_l.
  Qed.

  Lemma finv_1 : finv 1 = (1 : F).
  Proof. symmetry. apply finv_unique. ring. Qed.

  Lemma fsub_eq0 (x y : F) : x - y = 0 -> x = y.
  Proof. intros H. replace x with (x - y + y) by ring. rewrite H. ring. Qed.

  Lemma fadd_cancel_l (x y z : F) : x + y = x + z -> y = z.
  Proof. intros H. replace y with (x + y - x) by ring. rewrite H. ring. Qed.

  (** Characteristic-two facts. *)
  Lemma char2_double (H2 : char2 F) (x : F) : x + x = 0.
  Proof. replace (x + x) with ((1+1)*x) by ring. red in H2. rewrite H2. ring. Qed.

  Lemma char2_opp (H2 : char2 F) (x : F) : - x = x.
  Proof.
    replace x with (x + x - x) at 2 by ring. rewrite char2_double by auto. ring.
  Qed.

  Lemma char2_sub (H2 : char2 F) (x y : F) : x - y = x + y.
  Proof. replace (x - y) with (x + - y) by ring. now rewrite char2_opp. Qed.

  Lemma char2_add_eq0 (H2 : char2 F) (x y : F) : x + y = 0 <-> x = y.
  Proof.
    split; intros H.
    - apply fsub_eq0. now rewrite char2_sub.
    - subst. now apply char2_double.
  Qed.
End FieldFacts.

(** GF(2) as coefficient ring for [ring] in characteristic two. *)
Lemma bool_ring : ring_theory false true xorb andb xorb (fun x => x) (@eq bool).
Proof.
  constructor; intros; repeat match goal with b : bool |- _ => destruct b end; reflexivity.
Qed.

Definition bool_to {F : field} (b : bool) : F := if b then f1 else f0.

Lemma char2_morph (F : field) (H2 : char2 F) :
  ring_morph (R:=F) f0 f1 fadd fmul fsub fopp (@eq F)
             false true xorb andb xorb (fun x => x) Bool.eqb bool_to.
Proof.
  pose proof (f_ring F) as R.
  assert (A0 : forall x : F, fadd f0 x = x) by (intros; apply (Radd_0_l R)).
  assert (A0r : forall x : F, fadd x f0 = x)
    by (intros; rewrite (Radd_comm R); apply (Radd_0_l R)).
  assert (M1 : forall x : F, fmul f1 x = x) by (intros; apply (Rmul_1_l R)).
  assert (D : fadd f1 f1 = (f0 : F)) by exact H2.
  assert (M0 : forall x : F, fmul f0 x = f0).
  { intros x. replace (@f0 F) with (fadd (@f1 F) f1) at 1 by exact H2.
    rewrite (Rdistr_l R), !M1. now apply char2_double. }
  constructor; simpl; intros;
    repeat match goal with b : bool |- _ => destruct b end; simpl in *;
    rewrite ?char2_sub, ?char2_opp, ?A0, ?A0r, ?M1, ?M0 by auto; auto; try discriminate.
Qed.

Ltac bool_cst t :=
  match t with
  | true => constr:(true) | false => constr:(false)
  | _ => constr:(InitialRing.NotConstant)
  end.

Ltac fcst t :=
  match t with
  | @f0 _ => constr:(false)
  | @f1 _ => constr:(true)
  | _ => constr:(InitialRing.NotConstant)
  end.

(** Iterated products and sums. *)
Section BigOps.
  Variable F : field.
  Local Open Scope fld_scope.
  Add Ring Fring2 : (f_ring F).

  Fixpoint fpow (x : F) (n : nat) : F :=
    match n with O => 1 | S n => x * fpow x n end.

  Fixpoint fsum (l : list F) : F :=
    match l with [] => 0 | x :: l => x + fsum l end.

  Fixpoint fprod (l : list F) : F :=
    match l with [] => 1 | x :: l => x * fprod l end.

  Lemma fpow_add (x : F) n m : fpow x (n + m) = fpow x n * fpow x m.
  Proof. induction n; simpl; [ring|]. rewrite IHn. ring. Qed.

  Lemma fpow_mul_l (x y : F) n : fpow (x * y) n = fpow x n * fpow y n.
  Proof. induction n; simpl; [ring|]. rewrite IHn. ring. Qed.

  Lemma fpow_mul (x : F) n m : fpow x (n * m) = fpow (fpow x m) n.
  Proof. induction n; simpl; auto. now rewrite fpow_add, IHn. Qed.

  Lemma fpow_1 n : fpow 1 n = 1.
  Proof. induction n; simpl; auto. rewrite IHn. ring. Qed.

  Lemma fsum_app l1 l2 : fsum (l1 ++ l2) = fsum l1 + fsum l2.
  Proof. induction l1; simpl; [ring|]. rewrite IHl1. ring. Qed.

  Lemma fprod_app l1 l2 : fprod (l1 ++ l2) = fprod l1 * fprod l2.
  Proof. induction l1; simpl; [ring|]. rewrite IHl1. ring. Qed.

  Lemma fsum_map_scale {A} (f : A -> F) c l :
    fsum (map (fun a => c * f a) l) = c * fsum (map f l).
  Proof. induction l; simpl; [ring|]. rewrite IHl. ring. Qed.

  Lemma fsum_map_add {A} (f g : A -> F) l :
    fsum (map (fun a => f a + g a) l) = fsum (map f l) + fsum (map g l).
  Proof. induction l; simpl; [ring|]. rewrite IHl. ring. Qed.

  Lemma fsum_map_0 {A} (l : list A) : fsum (map (fun _ => 0) l) = 0.
  Proof. induction l; simpl; [ring|]. rewrite IHl. ring. Qed.

  Lemma fsum_map_ext {A} (f g : A -> F) l :
    (forall a, In a l -> f a = g a) -> fsum (map f l) = fsum (map g l).
  Proof. intros H. f_equal. now apply map_ext_in. Qed.

  Lemma fsum_swap {A B} (f : A -> B -> F) la lb :
    fsum (map (fun a => fsum (map (f a) lb)) la) =
    fsum (map (fun b => fsum (map (fun a => f a b) la)) lb).
  Proof.
    induction la; simpl.
    - induction lb; simpl; [auto|]. rewrite <- IHlb. ring.
    - rewrite IHla. symmetry. apply fsum_map_add.
  Qed.

  Lemma fprod_eq0 l : fprod l = 0 <-> In 0 l.
  Proof.
    induction l; simpl.
    - split; [intros H; now destruct (f_10 F) | tauto].
    - split.
      + intros H. apply fmul_eq0 in H. rewrite IHl in H. tauto.
      + intros [H|H]; [subst; ring | rewrite (proj2 IHl H); ring].
  Qed.
End BigOps.

Arguments fpow {_} _ _.
Arguments fsum {_} _.
Arguments fprod {_} _.
