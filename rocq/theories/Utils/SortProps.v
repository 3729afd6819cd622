(** C48: stable sorting and restoring the order. *)
Require Import Coq.Arith.Arith Coq.Lists.List Coq.Bool.Bool Coq.Sorting.Permutation Coq.Sorting.Sorted Lia.
From Verif Require Import Base.Lists Utils.SortModel.
Import ListNotations.

Section Sort.
  Context {A : Type} (key : A -> nat).
  Let le (a b : A) := key a <=? key b.

  Lemma insert_perm f (x : A) l : Permutation (insert f x l) (x :: l).
  Proof.
    induction l as [|y l IH]; cbn [insert]; [reflexivity|]. destruct (f x y); [reflexivity|]. rewrite IH. apply perm_swap.
  Qed.

  Lemma sort_perm f (l : list A) : Permutation (sort_by f l) l.
  Proof. induction l as [|x l IH]; cbn [sort_by fold_right]; [reflexivity|]. fold (sort_by f l). rewrite insert_perm. now constructor. Qed.

  Lemma sort_length f (l : list A) : length (sort_by f l) = length l.
  Proof. apply Permutation_length, sort_perm. Qed.

  (** for both directions: [R] is the order of the keys *)
  Variable R : nat -> nat -> Prop.
  Variable f : A -> A -> bool.
  Variable fR : forall a b, f a b = true <-> R (key a) (key b).
  Variable Rt : forall a b c, R a b -> R b c -> R a c.
  Variable Rtot : forall a b, R a b \/ R b a.
  Variable Rref : forall a, R a a.

  Lemma insert_sorted x l : StronglySorted R (map key l) -> StronglySorted R (map key (insert f x l)).
  Proof.
    induction l as [|y l IH]; cbn [insert map]; intros S; [repeat constructor|]. apply StronglySorted_inv in S as [S FA].
    destruct (f x y) eqn:E; cbn [map].
    - apply fR in E. constructor; [now constructor|]. constructor; auto. eapply Forall_impl; [|exact FA]. intros a Ha. eapply Rt; eauto.
    - constructor; [now apply IH|]. rewrite Forall_map. apply Forall_forall. intros a Ha. apply (Permutation_in _ (insert_perm f x l)) in Ha.
      destruct Ha as [<-|Ha].
      + destruct (Rtot (key x) (key y)) as [H|H]; auto. apply fR in H. congruence.
      + rewrite Forall_map, Forall_forall in FA. auto.
  Qed.

  Lemma sort_sorted l : StronglySorted R (map key (sort_by f l)).
  Proof. induction l as [|x l IH]; cbn [sort_by fold_right map]; [constructor|]. now apply insert_sorted. Qed.

  Lemma insert_filter x l k : filter (fun a => key a =? k) (insert f x l) = filter (fun a => key a =? k) (x :: l).
  Proof.
    induction l as [|y l IH]; cbn [insert]; [reflexivity|]. destruct (f x y) eqn:E; [reflexivity|].
    cbn [filter] in *. destruct (Nat.eqb_spec (key y) k) as [Ey|Ny]; rewrite IH; destruct (Nat.eqb_spec (key x) k) as [Ex|Nx]; auto.
    exfalso. assert (f x y = true); [|congruence]. apply fR. rewrite Ex, <- Ey. apply Rref.
  Qed.

  Lemma sort_filter l k : filter (fun a => key a =? k) (sort_by f l) = filter (fun a => key a =? k) l.
  Proof.
    induction l as [|x l IH]; cbn [sort_by fold_right]; [reflexivity|]. rewrite insert_filter. fold (sort_by f l). cbn [filter]. now rewrite IH.
  Qed.
End Sort.

Lemma map_snd_combine_seq {T} (l : list T) s : map snd (combine (seq s (length l)) l) = l.
Proof. revert s. induction l as [|x l IH]; intros s; cbn; [reflexivity|]. now rewrite IH. Qed.
Lemma map_fst_combine_eq {X Y} (l : list X) (m : list Y) : length l = length m -> map fst (combine l m) = l.
Proof. revert m. induction l as [|x l IH]; intros [|y m] H; cbn in *; try lia; auto. rewrite IH by lia. reflexivity. Qed.

Lemma filter_map_snd {T} (p : T -> bool) (l : list (nat * T)) : filter p (map snd l) = map snd (filter (fun x => p (snd x)) l).
Proof. induction l as [|x l IH]; cbn; [reflexivity|]. rewrite IH. now destruct (p (snd x)). Qed.

(** The indices are a permutation, the object at each place is the original at its index, the keys are sorted as asked
    and objects with equal keys keep their order. *)
Theorem stable_sort_spec {T} (objs : list T) (key : T -> nat) (descending : bool) :
  let '(idx, sorted) := stable_sort objs key descending in
  Permutation idx (seq 0 (length objs)) /\ length sorted = length objs /\
  map (nth_error objs) idx = map Some sorted /\
  StronglySorted (if descending then ge else le) (map key sorted) /\
  forall k, filter (fun x => key x =? k) sorted = filter (fun x => key x =? k) objs.
Proof.
  unfold stable_sort. set (indexed := combine (seq 0 (length objs)) objs).
  set (sorted := if descending then _ else _).
  assert (P : Permutation sorted indexed) by (unfold sorted; destruct descending; apply sort_perm).
  assert (LI : length indexed = length objs) by (unfold indexed; rewrite combine_length, seq_length; lia).
  split; [|split; [|split; [|split]]].
  - transitivity (map fst indexed); [now apply Permutation_map|]. unfold indexed. rewrite map_fst_combine_eq by apply seq_length. reflexivity.
  - rewrite map_length, (Permutation_length P). exact LI.
  - rewrite !map_map. apply map_ext_in. intros [i x] H. apply (Permutation_in _ P) in H. cbn [fst snd].
    apply In_nth_error in H as [j Hj]. unfold indexed in Hj.
    assert (LJ : j < length objs) by (rewrite <- LI; apply nth_error_Some; unfold indexed; congruence).
    assert (E : nth_error (combine (seq 0 (length objs)) objs) j = Some (nth j (combine (seq 0 (length objs)) objs) (0, x))).
    { apply nth_error_nth'. fold indexed. lia. }
    rewrite E, combine_nth in Hj by apply seq_length. rewrite seq_nth in Hj by auto. injection Hj as <- HX. cbn [Nat.add]. rewrite <- HX. now apply nth_error_nth'.
  - rewrite map_map. unfold sorted. destruct descending.
    + apply (sort_sorted (fun a : nat * T => key (snd a)) ge (fun a b => key (snd b) <=? key (snd a))); intros; unfold ge in *; try lia.
      apply Nat.leb_le.
    + apply (sort_sorted (fun a : nat * T => key (snd a)) le (fun a b => key (snd a) <=? key (snd b))); intros; try lia.
      apply Nat.leb_le.
  - intros k. rewrite filter_map_snd. transitivity (map snd (filter (fun x : nat * T => key (snd x) =? k) indexed)).
    + f_equal. unfold sorted. destruct descending.
      * apply (sort_filter (fun a : nat * T => key (snd a)) ge); intros; unfold ge in *; try lia. apply Nat.leb_le.
      * apply (sort_filter (fun a : nat * T => key (snd a)) le); intros; try lia. apply Nat.leb_le.
    + rewrite <- (filter_map_snd (fun x => key x =? k)). unfold indexed. now rewrite map_snd_combine_seq.
Qed.

Lemma sorted_perm_seq (l : list nat) n s : StronglySorted le l -> Permutation l (seq s n) -> l = seq s n.
Proof.
  revert l s. induction n as [|n IH]; intros l s S P; cbn [seq] in *; [now apply Permutation_nil, Permutation_sym|].
  destruct l as [|a l]; [apply Permutation_length in P; discriminate P|]. apply StronglySorted_inv in S as [S FA].
  assert (a = s).
  { assert (A : In a (s :: seq (1 + s) n)) by (apply (Permutation_in _ P); now left).
    assert (B : In s (a :: l)) by (apply (Permutation_in _ (Permutation_sym P)); now left).
    rewrite Forall_forall in FA. destruct B as [|B]; auto. specialize (FA s B). destruct A as [|A]; auto. apply in_seq in A. lia. }
  subst. f_equal. apply IH; auto. eapply Permutation_cons_inv; eauto.
Qed.

(** Restoring: the object at place [j] goes to the place its original index names. *)
Theorem unsort_spec {T} (idx : list nat) (objs : list T) : Permutation idx (seq 0 (length objs)) ->
  length (unsort idx objs) = length objs /\
  forall j i, nth_error idx j = Some i -> nth_error (unsort idx objs) i = nth_error objs j.
Proof.
  intros P. assert (L : length idx = length objs) by (apply Permutation_length in P; now rewrite seq_length in P).
  unfold unsort. set (s := sort_by _ _). assert (PS : Permutation s (combine idx objs)) by apply sort_perm.
  assert (LS : length s = length objs) by (rewrite (Permutation_length PS), combine_length; lia).
  assert (FS : map fst s = seq 0 (length objs)).
  { apply sorted_perm_seq.
    - apply (sort_sorted (fun a : nat * T => fst a) le (fun a b => fst a <=? fst b)); intros; try lia. apply Nat.leb_le.
    - rewrite (Permutation_map fst PS), map_fst_combine_eq by auto. exact P. }
  split; [now rewrite map_length|]. intros j i Hj.
  assert (LJ : j < length idx) by (apply nth_error_Some; congruence).
  destruct (nth_error objs j) as [x|] eqn:EX; [|apply nth_error_None in EX; lia].
  assert (IN : In (i, x) s).
  { apply (Permutation_in _ (Permutation_sym PS)). apply nth_error_In with (n := j).
    rewrite (nth_error_nth' _ (i, x)) by (rewrite combine_length; lia). rewrite combine_nth by auto.
    rewrite (nth_error_nth _ _ _ Hj), (nth_error_nth _ _ _ EX). reflexivity. }
  apply In_nth_error in IN as [p Hp]. assert (p = i).
  { assert (E : nth_error (map fst s) p = Some i) by (rewrite nth_error_map, Hp; reflexivity).
    assert (LP : p < length s) by (apply nth_error_Some; congruence). rewrite FS in E.
    rewrite (nth_error_nth' _ 0) in E by (rewrite seq_length; lia). rewrite seq_nth in E by lia. now injection E. }
  subst p. now rewrite nth_error_map, Hp.
Qed.

(** Sorting and restoring are inverse, whatever is done to each object in between. *)
Theorem sort_unsort {T U} (objs : list T) (key : T -> nat) (descending : bool) (f : T -> U) :
  unsort (fst (stable_sort objs key descending)) (map f (snd (stable_sort objs key descending))) = map f objs.
Proof.
  pose proof (stable_sort_spec objs key descending) as H. destruct (stable_sort objs key descending) as [idx sorted]. cbn [fst snd].
  destruct H as [P [L [M _]]].
  destruct (unsort_spec idx (map f sorted)) as [LU NU]; [now rewrite map_length, L|]. rewrite map_length, L in LU.
  assert (E : forall i, i < length objs -> nth_error (unsort idx (map f sorted)) i = nth_error (map f objs) i).
  { intros i Hi. assert (IN : In i idx) by (apply (Permutation_in _ (Permutation_sym P)), in_seq; lia).
    apply In_nth_error in IN as [j Hj]. rewrite (NU _ _ Hj). rewrite !nth_error_map.
    assert (Q : nth_error (map (nth_error objs) idx) j = nth_error (map Some sorted) j) by now rewrite M.
    rewrite !nth_error_map, Hj in Q. cbn [option_map] in Q. destruct (nth_error sorted j); cbn in *; [|discriminate]. injection Q as ->. reflexivity. }
  apply nth_error_ext. intros i. destruct (Nat.lt_ge_cases i (length objs)) as [Hi|Hi]; [now apply E|].
  rewrite (proj2 (nth_error_None _ _)) by lia. symmetry. apply nth_error_None. now rewrite map_length.
Qed.

Lemma sorted_asc_windows_spec l : sorted_asc_windows l = true <-> StronglySorted le l.
Proof.
  induction l as [|a [|b l] IH]; [split; auto; constructor|split; auto; intros _; repeat constructor|].
  cbn [sorted_asc_windows]. rewrite andb_true_iff, IH. split.
  - intros [H S]. apply negb_true_iff, Nat.ltb_ge in H. constructor; auto. apply StronglySorted_inv in S as [_ FA].
    constructor; auto. eapply Forall_impl; [|exact FA]. cbn. intros; lia.
  - intros S. apply StronglySorted_inv in S as [S FA]. split; auto. apply negb_true_iff, Nat.ltb_ge. now apply Forall_inv in FA.
Qed.

Fact stable_sort_ex :
  stable_sort [(3, 0); (5, 1); (3, 2); (8, 3); (5, 4)] fst true = ([3; 1; 4; 0; 2], [(8, 3); (5, 1); (5, 4); (3, 0); (3, 2)]) /\
  unsort [3; 1; 4; 0; 2] [80; 50; 51; 30; 31] = [30; 50; 31; 80; 51].
Proof. split; vm_compute; reflexivity. Qed.
