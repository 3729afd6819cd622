(** Reasoning about tables: what a satisfying witness must hold ([ens]) and how to build one ([can]). *)
Require Import Coq.Arith.Arith Coq.Lists.List Coq.Bool.Bool Lia.
From Verif Require Import Base.Fld Base.Lists Base.Sums M3.TableModel.
Import ListNotations.
Local Open Scope nat_scope.

Section Logic.
  Variable F : field.
  Hypothesis C2 : char2 F.
  Variable basis : nat -> F.
  Variable n : nat.
  Notation sat w t := (satisfies F basis n w t).
  Notation colok := (col_ok F basis n).
  Notation wit := (wit F).
  Notation len t := (length (t_cols F t)).

  (** Every witness that satisfies the table after [m] satisfies the table before and has property [Q]. *)
  Definition ens {A} (m : builder F A) (Q : wit -> A -> Prop) : Prop :=
    forall t a t', m t = (a, t') -> forall w, sat w t' -> sat w t /\ Q w a.

  Lemma ens_ret {A} (a : A) (Q : wit -> A -> Prop) : (forall w, Q w a) -> ens (bret F a) Q.
  Proof. intros H t a' t' E w S. injection E as <- <-. auto. Qed.
  Lemma ens_bind {A B} (m : builder F A) (k : A -> builder F B) Q R : ens m Q -> (forall a, ens (k a) (R a)) -> ens (bbind F m k) (fun w b => exists a, Q w a /\ R a w b).
  Proof.
    intros Hm Hk t b t' E w S. unfold bbind in E. destruct (m t) as [a t1] eqn:Em. destruct (Hk a _ _ _ E w S) as [S1 HR]. destruct (Hm _ _ _ Em w S1) as [S0 HQ]. eauto.
  Qed.
  Lemma ens_conseq {A} (m : builder F A) (Q Q' : wit -> A -> Prop) : ens m Q -> (forall w a, Q w a -> Q' w a) -> ens m Q'.
  Proof. intros H HQ t a t' E w S. destruct (H _ _ _ E w S). auto. Qed.
  Lemma ens_col v d : ens (new_column F v d) (fun w c => colok w c (v, d)).
  Proof.
    intros t a t' E w (SC & SZ & SN). injection E as <- <-. cbn [t_cols t_zero t_nonzero] in *. split.
    - split; [|auto]. intros id vd Ei. apply SC. rewrite nth_error_app1; auto. eapply nth_error_lt; eauto.
    - apply SC. rewrite nth_error_app2, Nat.sub_diag by lia. reflexivity.
  Qed.
  Lemma ens_zero v e : ens (assert_zero F v e) (fun w _ => zero_ok F n w (v, e)).
  Proof.
    intros t a t' E w (SC & SZ & SN). injection E as <- <-. cbn [t_cols t_zero t_nonzero] in *. apply Forall_app in SZ. destruct SZ as [SZ Z]. inversion Z; subst.
    split; [split; [auto|split; auto]|auto].
  Qed.
  Lemma ens_nonzero v c : ens (assert_nonzero F v c) (fun w _ => nonzero_ok F n w (v, c)).
  Proof.
    intros t a t' E w (SC & SZ & SN). injection E as <- <-. cbn [t_cols t_zero t_nonzero] in *. apply Forall_app in SN. destruct SN as [SN Z]. inversion Z; subst.
    split; [split; [auto|split; auto]|auto].
  Qed.
  Lemma ens_from_fn {A} (d : A) f Q k : forall s, (forall i, s <= i < s + k -> ens (f i) (Q i)) ->
    ens (from_fn F k s f) (fun w l => length l = k /\ forall i, i < k -> Q (s + i) w (nth i l d)).
  Proof.
    induction k as [|k IH]; intros s H; cbn [from_fn].
    - apply ens_ret. intros w. split; [reflexivity|]. intros i Hi. lia.
    - eapply ens_conseq; [apply ens_bind; [apply (H s); lia|intros a; apply ens_bind; [apply (IH (S s)); intros; apply H; lia|intros l; apply (ens_ret (a :: l) (fun w b => b = a :: l)); reflexivity]]|].
      intros w l (a & Qa & l' & (L & Ql) & ->). split; [cbn; lia|]. intros [|i] Hi; [now rewrite Nat.add_0_r|]. rewrite <- Nat.add_succ_comm. cbn [nth]. apply Ql. lia.
  Qed.
  Lemma ens_computed v bit e : ens (add_computed F v bit e) (fun w c => forall i, i < n * v -> w c i = eeval F w i e).
  Proof.
    unfold add_computed. destruct (edegree F e <=? 1).
    - apply (ens_col v (DComputed F e)).
    - eapply ens_conseq; [apply ens_bind; [apply ens_col|intros c; apply ens_bind; [apply ens_zero|intros ?; apply (ens_ret c (fun w b => b = c)); reflexivity]]|].
      intros w c (c' & _ & u & Z & ->) i Hi. specialize (Z i Hi). cbn [snd eeval] in Z. symmetry. now apply (char2_add_eq0 F C2).
  Qed.
  Lemma ens_committed v : ens (add_committed F v true) (fun w c => forall i, i < n * v -> w c i = f0 \/ w c i = f1).
  Proof. eapply ens_conseq; [apply ens_col|]. intros w c H i Hi. now apply H. Qed.
  Lemma ens_true {A} (m : builder F A) Q : ens m Q -> ens m (fun _ _ => True).
  Proof. intros H. eapply ens_conseq; eauto. Qed.

  (** *** Building witnesses *)
  Definition agree (k : nat) (w w' : wit) : Prop := forall c, c < k -> forall i, w c i = w' c i.
  (** [Q] holds of every witness with the same values in the columns of [t]. *)
  Definition hat (t : table F) (w : wit) (Q : wit -> Prop) : Prop := forall w', agree (len t) w w' -> Q w'.
  (** Starting from a witness of the current table with property [P], values can be chosen for the columns added by [m] such
      that the new table is satisfied and [Q] holds. *)
  Definition can {A} (P : wit -> Prop) (m : builder F A) (Q : wit -> A -> Prop) : Prop :=
    forall t a t', m t = (a, t') -> len t <= len t' /\
      forall w, hat t w (fun w => sat w t /\ P w) -> exists w', agree (len t) w w' /\ hat t' w' (fun w => sat w t' /\ Q w a).

  Lemma agree_trans k k' w1 w2 w3 : k <= k' -> agree k w1 w2 -> agree k' w2 w3 -> agree k w1 w3.
  Proof. intros H A B c Hc i. rewrite (A c Hc i). apply B. lia. Qed.
  Lemma agree_refl k w : agree k w w. Proof. intros c _ i. reflexivity. Qed.

  Lemma can_ret {A} (P : wit -> Prop) (a : A) (Q : wit -> A -> Prop) : (forall w, P w -> Q w a) -> can P (bret F a) Q.
  Proof. intros H t a' t' E. injection E as <- <-. split; [lia|]. intros w HP. exists w. split; [apply agree_refl|]. intros w' A'. destruct (HP w' A'). auto. Qed.
  Lemma can_bind {A B} P (m : builder F A) (k : A -> builder F B) Q R : can P m Q -> (forall a, can (fun w => P w /\ Q w a) (k a) R) -> can P (bbind F m k) R.
  Proof.
    intros Hm Hk t b t' E. unfold bbind in E. destruct (m t) as [a t1] eqn:Em. destruct (Hm _ _ _ Em) as [L1 H1]. destruct (Hk a _ _ _ E) as [L2 H2]. split; [lia|].
    intros w HP. destruct (H1 w HP) as (w1 & A1 & S1). destruct (H2 w1) as (w2 & A2 & S2).
    - intros w' A'. destruct (S1 w' A') as [X Y]. destruct (HP w' (agree_trans _ _ _ _ _ L1 A1 A')). auto.
    - exists w2. split; [eapply agree_trans; eauto|]. auto.
  Qed.
  Lemma can_conseq {A} (P P' : wit -> Prop) (m : builder F A) (Q Q' : wit -> A -> Prop) : can P' m Q' -> (forall w, P w -> P' w) -> (forall w a, P w -> Q' w a -> Q w a) -> can P m Q.
  Proof.
    intros H HP HQ t a t' E. destruct (H _ _ _ E) as [L G]. split; [auto|]. intros w Hw. destruct (G w) as (w' & A' & S').
    - intros w1 A1. destruct (Hw w1 A1). auto.
    - exists w'. split; [auto|]. intros w1 A1. destruct (S' w1 A1) as [X Y]. split; [auto|]. apply HQ; [|auto]. apply Hw. eapply agree_trans; eauto.
  Qed.
  Lemma can_col (P : wit -> Prop) v d (f : nat -> F) : (forall w c, P w -> (forall i, w c i = f i) -> colok w c (v, d)) -> can P (new_column F v d) (fun w c => forall i, w c i = f i).
  Proof.
    intros H t a t' E. injection E as <- <-. cbn [t_cols]. rewrite app_length. cbn [length]. split; [lia|]. intros w Hw.
    exists (fun c i => if c =? len t then f i else w c i). split.
    - intros c Hc i. destruct (Nat.eqb_spec c (len t)); [lia|]. reflexivity.
    - intros w' A'. cbn [t_cols] in A'. rewrite app_length in A'. cbn [length] in A'.
      assert (V : forall i, w' (len t) i = f i). { intros i. rewrite <- (A' (len t) ltac:(lia) i). now rewrite Nat.eqb_refl. }
      destruct (Hw w') as [(SC & SZ & SN) PW].
      { intros c Hc i. rewrite <- (A' c ltac:(lia) i). destruct (Nat.eqb_spec c (len t)); [lia|]. reflexivity. }
      split; [|auto]. split; [|auto]. cbn [t_cols]. intros id vd Ei. destruct (Nat.lt_ge_cases id (len t)) as [L|L].
      + rewrite nth_error_app1 in Ei by auto. now apply SC.
      + assert (id = len t). { apply nth_error_lt in Ei. rewrite app_length in Ei. cbn in Ei. lia. } subst id. rewrite nth_error_app2, Nat.sub_diag in Ei by lia. injection Ei as <-. now apply H.
  Qed.
  Lemma can_zero (P : wit -> Prop) v e : (forall w, P w -> zero_ok F n w (v, e)) -> can P (assert_zero F v e) (fun _ _ => True).
  Proof.
    intros H t a t' E. injection E as <- <-. cbn [t_cols]. split; [lia|]. intros w Hw. exists w. split; [apply agree_refl|]. intros w' A'. destruct (Hw w' A') as [(SC & SZ & SN) PW].
    split; [|auto]. split; [auto|]. cbn. split; [|auto]. apply Forall_app. split; [auto|]. constructor; auto.
  Qed.
  Lemma can_nonzero (P : wit -> Prop) v c : (forall w, P w -> nonzero_ok F n w (v, c)) -> can P (assert_nonzero F v c) (fun _ _ => True).
  Proof.
    intros H t a t' E. injection E as <- <-. cbn [t_cols]. split; [lia|]. intros w Hw. exists w. split; [apply agree_refl|]. intros w' A'. destruct (Hw w' A') as [(SC & SZ & SN) PW].
    split; [|auto]. split; [auto|]. cbn. split; [auto|]. apply Forall_app. split; [auto|]. constructor; auto.
  Qed.
  Lemma can_from_fn {A} (d : A) f (Q : nat -> wit -> A -> Prop) k : forall s (P : wit -> Prop), (forall i, s <= i < s + k -> can P (f i) (Q i)) ->
    can P (from_fn F k s f) (fun w l => length l = k /\ forall i, i < k -> Q (s + i) w (nth i l d)).
  Proof.
    induction k as [|k IH]; intros s P H; cbn [from_fn].
    - apply can_ret. intros w. split; [reflexivity|]. intros i Hi. lia.
    - eapply can_bind; [apply (H s); lia|]. intros a. eapply can_bind.
      + apply (IH (S s)). intros i Hi. eapply can_conseq; [apply (H i); lia|tauto|auto].
      + intros l. apply can_ret. intros w ((PW & Qa) & L & Ql). split; [cbn; lia|]. intros [|i] Hi; [now rewrite Nat.add_0_r|]. rewrite <- Nat.add_succ_comm. cbn [nth]. apply Ql. lia.
  Qed.
  Lemma can_committed (P : wit -> Prop) v f : (forall i, f i = f0 \/ f i = f1) -> can P (add_committed F v true) (fun w c => forall i, w c i = f i).
  Proof. intros H. apply can_col. intros w c _ E i _ _. rewrite E. apply H. Qed.
  Lemma can_committed_multiple (P : wit -> Prop) k v f : (forall j i, f j i = f0 \/ f j i = f1) ->
    can P (add_committed_multiple F k v true) (fun w l => length l = k /\ forall j, j < k -> forall i, w (nth j l 0) i = f j i).
  Proof. intros H. unfold add_committed_multiple. apply (can_from_fn 0 _ (fun j w c => forall i, w c i = f j i) k 0). intros j _. now apply can_committed. Qed.
  Lemma can_computed (P : wit -> Prop) v bit e f : (bit = true -> forall i, f i = f0 \/ f i = f1) -> (forall w, P w -> forall i, i < n * v -> eeval F w i e = f i) ->
    can P (add_computed F v bit e) (fun w c => forall i, w c i = f i).
  Proof.
    intros HB H. unfold add_computed. destruct (edegree F e <=? 1).
    - apply can_col. intros w c PW E i Hi. rewrite E. symmetry. now apply H.
    - eapply can_bind; [apply can_col with (f := f)|].
      + intros w c PW E i Hi Hb. rewrite E. now apply HB.
      + intros c. eapply can_bind; [apply can_zero|].
        * intros w (PW & E) i Hi. cbn [snd eeval]. rewrite E, (H w PW i) by auto. now apply (char2_double F C2).
        * intros u. apply can_ret. tauto.
  Qed.
End Logic.
