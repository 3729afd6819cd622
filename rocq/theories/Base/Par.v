(** Parallel jobs: a schedule is an interleaving of the jobs' steps, and when steps of different jobs
    commute every schedule has the same outcome. *)
Require Import Coq.Arith.Arith Coq.Lists.List Coq.Sorting.Permutation Lia.
From Verif Require Import Base.Lists.
Import ListNotations.

(** [tr] interleaves the jobs: repeatedly some job executes its next step. *)
Inductive shuffle {A} : list (list A) -> list A -> Prop :=
| shuffle_done js : (forall j, In j js -> j = []) -> shuffle js []
| shuffle_step l1 a r l2 tr : shuffle (l1 ++ r :: l2) tr -> shuffle (l1 ++ (a :: r) :: l2) (a :: tr).

(** Running the jobs one after the other is a schedule. *)
Lemma shuffle_concat {A} (js : list (list A)) : shuffle js (concat js).
Proof.
  assert (G : forall pre : list (list A), (forall j, In j pre -> j = []) -> forall js : list (list A), shuffle (pre ++ js) (concat js)).
  { intros pre Hp js0. revert pre Hp. induction js0 as [|j js0 IH]; intros pre Hp.
    - rewrite app_nil_r. now constructor.
    - cbn [concat]. induction j as [|a j IHj].
      + cbn [app]. replace (pre ++ [] :: js0) with ((pre ++ [[]]) ++ js0) by (now rewrite <- app_assoc).
        apply IH. intros j Hj. apply in_app_iff in Hj. destruct Hj as [Hj|[<-|[]]]; auto.
      + cbn [app]. now constructor. }
  apply (G []). intros j [].
Qed.

Section Run.
  Context {A M : Type}.
  Variable run : M -> A -> option M.

  Definition commute (a b : A) : Prop := forall m, obind (run m a) (fun m' => run m' b) = obind (run m b) (fun m' => run m' a).
  Definition eqt (l l' : list A) : Prop := forall m, ofold run l m = ofold run l' m.

  Lemma eqt_refl l : eqt l l.
  Proof. intros m. reflexivity. Qed.
  Lemma eqt_sym l l' : eqt l l' -> eqt l' l.
  Proof. intros H m. now rewrite H. Qed.
  Lemma eqt_trans l l' l'' : eqt l l' -> eqt l' l'' -> eqt l l''.
  Proof. intros H H' m. now rewrite H, H'. Qed.
  Lemma eqt_app l1 l1' l2 l2' : eqt l1 l1' -> eqt l2 l2' -> eqt (l1 ++ l2) (l1' ++ l2').
  Proof. intros H1 H2 m. rewrite !ofold_app, H1. destruct (ofold run l1' m); cbn; auto. Qed.
  Lemma eqt_cons a l l' : eqt l l' -> eqt (a :: l) (a :: l').
  Proof. apply (eqt_app [a] [a]). apply eqt_refl. Qed.

  Lemma commute_sym a b : commute a b -> commute b a.
  Proof. intros H m. now rewrite H. Qed.

  Lemma eqt_swap1 a b l : commute a b -> eqt (a :: b :: l) (b :: a :: l).
  Proof.
    intros H m. cbn. specialize (H m). destruct (run m a) as [m1|], (run m b) as [m2|]; cbn in H.
    - rewrite H. reflexivity.
    - now rewrite H.
    - rewrite <- H. reflexivity.
    - reflexivity.
  Qed.

  Lemma eqt_move a l1 l2 : (forall b, In b l1 -> commute a b) -> eqt (a :: l1 ++ l2) (l1 ++ a :: l2).
  Proof.
    induction l1 as [|b l1 IH]; intros H; [apply eqt_refl|]. cbn [app].
    apply (eqt_trans _ (b :: a :: l1 ++ l2)); [apply eqt_swap1, H; now left|].
    apply eqt_cons, IH. intros. apply H. now right.
  Qed.

  Lemma eqt_comm l1 l2 : (forall a b, In a l1 -> In b l2 -> commute a b) -> eqt (l1 ++ l2) (l2 ++ l1).
  Proof.
    induction l1 as [|a l1 IH]; intros H; [rewrite app_nil_r; apply eqt_refl|]. cbn [app].
    apply (eqt_trans _ (a :: l2 ++ l1)); [apply eqt_cons, IH; intros; apply H; auto; now right|].
    apply eqt_move. intros. apply H; auto. now left.
  Qed.

  (** Jobs whose steps commute pairwise. *)
  Definition independent (jobs : list (list A)) : Prop :=
    ForallOrdPairs (fun j1 j2 => forall a b, In a j1 -> In b j2 -> commute a b) jobs.

  Lemma independent_drop l1 a r l2 : independent (l1 ++ (a :: r) :: l2) ->
    independent (l1 ++ r :: l2) /\ (forall b, In b (concat l1) -> commute a b).
  Proof.
    induction l1 as [|j l1 IH]; cbn [app concat]; intros H; inversion H as [|? ? H1 H3]; subst.
    - split; [|intros b []]. constructor; auto. apply (Forall_impl _ (P := fun j2 => forall a0 b, In a0 (a :: r) -> In b j2 -> commute a0 b)); auto.
      intros j2 Hj a' b Ha Hb. apply Hj; auto. now right.
    - destruct (IH H3) as [I1 I2]. split.
      + constructor; auto. apply Forall_app in H1. destruct H1 as [F1 F2]. apply Forall_app. split; auto.
        inversion F2 as [|? ? G1 G2]; subst. constructor; auto. intros a' b Ha Hb. apply G1; auto. now right.
      + intros b Hb. apply in_app_iff in Hb. destruct Hb as [Hb|Hb]; auto.
        apply Forall_app in H1. destruct H1 as [_ F2]. inversion F2 as [|? ? G1 G2]; subst.
        apply commute_sym. apply G1; auto. now left.
  Qed.

  Theorem shuffle_sequential jobs tr : shuffle jobs tr -> independent jobs -> eqt tr (concat jobs).
  Proof.
    induction 1 as [js H|l1 a r l2 tr H IH]; intros I.
    - replace (concat js) with (@nil A); [apply eqt_refl|]. symmetry. clear I. induction js as [|j js IH]; auto.
      cbn. rewrite (H j) by now left. apply IH. intros. apply H. now right.
    - destruct (independent_drop _ _ _ _ I) as [I1 I2].
      apply (eqt_trans _ (a :: concat (l1 ++ r :: l2))); [now apply eqt_cons, IH|].
      rewrite !concat_app. cbn [concat app]. apply (eqt_move a (concat l1) (r ++ concat l2)). exact I2.
  Qed.

  (** Round-major order: jobs made of the same number of rounds can be run round by round. *)
  Lemma eqt_zip {I} (f g : I -> list A) (is : list I) :
    (forall i i' a b, In i is -> In i' is -> In a (f i) -> In b (g i') -> commute a b) ->
    eqt (flat_map f is ++ flat_map g is) (flat_map (fun i => f i ++ g i) is).
  Proof.
    induction is as [|i is IH]; intros H; [apply eqt_refl|]. cbn [flat_map].
    apply (eqt_trans _ (f i ++ g i ++ flat_map f is ++ flat_map g is)).
    - rewrite <- !app_assoc. apply eqt_app; [apply eqt_refl|].
      rewrite (app_assoc (flat_map f is)), (app_assoc (g i)). apply eqt_app; [|apply eqt_refl].
      apply eqt_comm. intros a b Ha Hb. apply in_flat_map in Ha. destruct Ha as [i' [Hi' Ha]].
      apply (H i' i a b); [now right|now left|auto|auto].
    - rewrite <- app_assoc. apply eqt_app; [apply eqt_refl|]. apply eqt_app; [apply eqt_refl|]. apply IH.
      intros i1 i2 a b H1 H2. apply H; now right.
  Qed.

  Lemma round_major {J I} (B : J -> I -> list A) (is : list I) (js : list J) : NoDup js ->
    (forall j j' i i' a b, j <> j' -> In j js -> In j' js -> In i is -> In i' is -> In a (B j i) -> In b (B j' i') -> commute a b) ->
    eqt (concat (map (fun j => flat_map (B j) is) js)) (flat_map (fun i => flat_map (fun j => B j i) js) is).
  Proof.
    induction js as [|j js IH]; intros ND H; cbn [map concat flat_map].
    - replace (flat_map (fun _ => []) is) with (@nil A); [apply eqt_refl|]. clear H. induction is; auto.
    - inversion ND; subst.
      apply (eqt_trans _ (flat_map (B j) is ++ flat_map (fun i => flat_map (fun j => B j i) js) is)).
      + apply eqt_app; [apply eqt_refl|]. apply IH; auto. intros j1 j2 i i' a b N I1 I2. apply (H j1 j2 i i' a b N); now right.
      + apply (eqt_zip (B j) (fun i => flat_map (fun j => B j i) js)). intros i i' a b Hi Hi' Ha Hb.
        apply in_flat_map in Hb. destruct Hb as [j' [Hj' Hb]]. apply (H j j' i i'); auto; [|now left|now right].
        intros ->. contradiction.
  Qed.

  (** Steps that all commute can be reordered. *)
  Lemma eqt_permutation l l' : Permutation l l' -> NoDup l ->
    (forall a b, In a l -> In b l -> a <> b -> commute a b) -> eqt l l'.
  Proof.
    induction 1 as [|a l l' P IH|a b l|l l' l'' P1 IH1 P2 IH2]; intros ND H.
    - apply eqt_refl.
    - inversion ND; subst. apply eqt_cons, IH; auto. intros. apply H; auto; now right.
    - apply eqt_swap1. inversion ND; subst. apply H; [now left|right; now left|]. intros ->. apply H2. now left.
    - apply (eqt_trans _ l'); [now apply IH1|]. apply IH2; [eapply Permutation_NoDup; eauto|].
      intros a b Ha Hb. apply H; (eapply Permutation_in; [apply Permutation_sym; exact P1|assumption]).
  Qed.
End Run.
