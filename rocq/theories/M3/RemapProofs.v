(** Renaming the variables of a circuit to a dense range (for C78). *)
Require Import Coq.NArith.NArith Coq.Arith.Arith Coq.Lists.List Coq.Bool.Bool Lia.
From Verif Require Import Base.Fld Base.Lists Base.Sums Math.MleSpec Math.ArithModel Math.ArithProofs Math.ArithProps Field.TowerProofs M3.CompileModel.
Import ListNotations.
Local Close Scope N_scope.
Local Open Scope nat_scope.

Section Remap.
  Variable F : field.
  Implicit Types (c : circuit F).

  Lemma in_n_vars c i : In (SVar i) c -> i < n_vars c.
  Proof.
    induction c as [|s c IH]; [intros []|]. change (s :: c) with ([s] ++ c). rewrite n_vars_app. intros [->|H]; [change (n_vars [@SVar F i]) with (Nat.max (S i) 0); lia|]. specialize (IH H). lia.
  Qed.
  Lemma n_vars_le c m : (forall i, In (SVar i) c -> i < m) -> n_vars c <= m.
  Proof.
    induction c as [|s c IH]; intros H; [cbn; lia|]. change (s :: c) with ([s] ++ c). rewrite n_vars_app. apply Nat.max_lub; [|apply IH; intros i Hi; apply H; now right].
    destruct s as [| | |v|i]; try (cbn; lia). specialize (H i (or_introl eq_refl)). change (n_vars [@SVar F i]) with (Nat.max (S i) 0). lia.
  Qed.

  Lemma remap_ok c ind : (forall i, In (SVar i) c -> i < length ind) -> exists c', remap_vars c ind = Ok c'.
  Proof.
    intros H. unfold remap_vars. assert (G : exists c', omap (remap_step ind) c = Some c'); [|destruct G as [c' ->]; eauto].
    induction c as [|s c IH]; [exists []; reflexivity|]. cbn [omap]. destruct IH as [c' E]; [intros i Hi; apply H; now right|].
    assert (S1 : exists s', remap_step ind s = Some s').
    { destruct s; cbn [remap_step]; eauto. destruct (nth_error_ex ind i) as [j Ej]; [apply H; now left|]. rewrite Ej. cbn. eauto. }
    destruct S1 as [s' Es]. rewrite Es, E. eauto.
  Qed.
  Lemma remap_spec c ind c' : remap_vars c ind = Ok c' -> length c' = length c /\ forall n s, nth_error c n = Some s -> nth_error c' n = remap_step ind s.
  Proof. unfold remap_vars. destruct (omap (remap_step ind) c) as [d|] eqn:E; [|discriminate]. intros [= <-]. now apply omap_spec. Qed.

  Lemma remap_in c ind c' j : remap_vars c ind = Ok c' -> In (SVar j) c' -> exists i, In (SVar i) c /\ nth_error ind i = Some j.
  Proof.
    intros E H. apply remap_spec in E as [EL ES]. apply In_nth_error in H as [n Hn].
    destruct (nth_error_ex c n) as [s Hs]; [rewrite <- EL; apply nth_error_Some; congruence|]. specialize (ES n s Hs). rewrite Hn in ES.
    destruct s as [| | |v|i]; cbn [remap_step] in ES; try discriminate. destruct (nth_error ind i) as [j'|] eqn:Ei; cbn in ES; [|discriminate]. injection ES as ->. exists i. split; [eapply nth_error_In; eauto|exact Ei].
  Qed.
  Lemma remap_wf c ind c' : remap_vars c ind = Ok c' -> cwf F c -> cwf F c'.
  Proof.
    intros E [NE W]. apply remap_spec in E as [EL ES]. split; [intros ->; destruct c; [contradiction|discriminate]|].
    intros n s' Hs'. destruct (nth_error_ex c n) as [s Hs]; [rewrite <- EL; apply nth_error_Some; congruence|]. specialize (ES n s Hs). rewrite Hs' in ES. specialize (W n s Hs).
    destruct s as [| | |v|i]; cbn [remap_step] in ES; try (injection ES as ->; exact W). destruct (nth_error ind i); cbn in ES; [|discriminate]. injection ES as ->. exact W.
  Qed.
  Lemma remap_degree c ind c' : remap_vars c ind = Ok c' -> degree c' = degree c.
  Proof.
    intros E. apply remap_spec in E as [EL ES]. unfold degree. rewrite EL. generalize (length c - 1). generalize (S (length c)).
    induction n as [|n IH]; intros k; [reflexivity|]. cbn [step_degree]. destruct (nth_error c k) as [s|] eqn:Ek.
    - specialize (ES k s Ek). destruct s as [l r|l r|b e|v|i]; cbn [remap_step] in ES.
      + rewrite ES. cbn [obind]. now rewrite !IH.
      + rewrite ES. cbn [obind]. now rewrite !IH.
      + rewrite ES. cbn [obind]. now rewrite !IH.
      + now rewrite ES.
      + destruct (nth_error ind i) as [j|]; cbn [obind] in ES.
        * now rewrite ES.
        * apply nth_error_None in ES. assert (k < length c) by (apply nth_error_Some; congruence). lia.
    - assert (N : nth_error c' k = None) by (apply nth_error_None; rewrite EL; now apply nth_error_None). now rewrite N.
  Qed.

  (** The variables keep their values under the new names. *)
  Lemma remap_evaluate c ind c' (q q' : list F) : remap_vars c ind = Ok c' ->
    (forall i j, In (SVar i) c -> nth_error ind i = Some j -> nth_error q j = nth_error q' i) -> evaluate c' q = evaluate c q'.
  Proof.
    unfold remap_vars. destruct (omap (remap_step ind) c) as [d|] eqn:E; [|discriminate]. intros [= <-] H. unfold evaluate.
    assert (G : evals q d = evals q' c); [|now rewrite G].
    assert (G : forall vs, ofold (fun vs s => do v <- step_val q vs s; Some (vs ++ [v])) d vs = ofold (fun vs s => do v <- step_val q' vs s; Some (vs ++ [v])) c vs); [|apply G].
    revert d E H. induction c as [|s c IH]; intros d E H vs; cbn [omap] in E; [injection E as <-; reflexivity|].
    destruct (remap_step ind s) as [s'|] eqn:Es; [|discriminate]. destruct (omap (remap_step ind) c) as [d'|] eqn:Ed; [|discriminate]. injection E as <-. cbn [ofold].
    assert (SV : step_val q vs s' = step_val q' vs s).
    { destruct s as [| | |v|i]; cbn [remap_step] in Es; try (injection Es as <-; reflexivity). destruct (nth_error ind i) as [j|] eqn:Ei; cbn in Es; [|discriminate]. injection Es as <-. cbn [step_val]. apply H; [now left|exact Ei]. }
    rewrite SV. destruct (step_val q' vs s); cbn [obind]; [|reflexivity]. apply IH; [reflexivity|]. intros i j Hi. apply H. now right.
  Qed.

  (** * The positions of the used variables *)
  Lemma used_from (u : list bool) : forall s i, In i (map fst (filter snd (combine (seq s (length u)) u))) <-> s <= i /\ nth (i - s) u false = true.
  Proof.
    induction u as [|b u IH]; intros s i; cbn [length seq combine filter map].
    - split; [intros []|]. intros [_ H]. destruct (i - s); discriminate.
    - destruct b; cbn [snd fst map].
      + cbn [In]. rewrite IH. split.
        * intros [<-|[H1 H2]]; [rewrite Nat.sub_diag; auto|]. split; [lia|]. replace (i - s) with (S (i - S s)) by lia. exact H2.
        * intros [H1 H2]. destruct (Nat.eq_dec s i) as [->|N]; [now left|right]. split; [lia|]. replace (i - s) with (S (i - S s)) in H2 by lia. exact H2.
      + rewrite IH. split.
        * intros [H1 H2]. split; [lia|]. replace (i - s) with (S (i - S s)) by lia. exact H2.
        * intros [H1 H2]. destruct (Nat.eq_dec s i) as [->|N]; [rewrite Nat.sub_diag in H2; discriminate|]. split; [lia|]. replace (i - s) with (S (i - S s)) in H2 by lia. exact H2.
  Qed.
  Lemma used_spec u i : In i (used_indices u) <-> nth i u false = true.
  Proof. unfold used_indices. rewrite used_from, Nat.sub_0_r. split; [intros [_ H]; exact H|split; [lia|assumption]]. Qed.
  Lemma used_sorted (u : list bool) : forall s, NoDup (map fst (filter snd (combine (seq s (length u)) u))).
  Proof.
    induction u as [|b u IH]; intros s; cbn [length seq combine filter map]; [constructor|]. destruct b; cbn [snd fst map]; [|apply IH].
    constructor; [|apply IH]. rewrite used_from. lia.
  Qed.
  Lemma used_nodup u : NoDup (used_indices u).
  Proof. apply used_sorted. Qed.

  Lemma fill_length l : forall k m, length (fill_from k l m) = length m.
  Proof. induction l as [|i l IH]; intros k m; cbn [fill_from]; [reflexivity|]. now rewrite IH, upd_length. Qed.
  Lemma fill_other l : forall k m i, ~ In i l -> nth_error (fill_from k l m) i = nth_error m i.
  Proof.
    induction l as [|a l IH]; intros k m i H; cbn [fill_from]; [reflexivity|]. rewrite IH by (intros X; apply H; now right). apply nth_error_upd_ne. intros ->. apply H. now left.
  Qed.
  Lemma fill_spec l : NoDup l -> forall k m n i, nth_error l n = Some i -> i < length m -> nth_error (fill_from k l m) i = Some (k + n).
  Proof.
    induction 1 as [|a l NI ND IH]; intros k m n i Hn Hi; [destruct n; discriminate|]. cbn [fill_from]. destruct n as [|n]; cbn [nth_error] in Hn.
    - injection Hn as <-. rewrite fill_other by assumption. rewrite nth_error_upd_eq by assumption. f_equal. lia.
    - rewrite (IH (S k) _ n i Hn) by now rewrite upd_length. f_equal. lia.
  Qed.
End Remap.
