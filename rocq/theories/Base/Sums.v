(** Indexed finite sums [sumn n f = f 0 + ... + f (n-1)] over a field, and the result type of the
    Rust functions that can fail or panic. *)
Require Import Coq.setoid_ring.Ring Coq.Arith.Arith Coq.Lists.List Coq.Bool.Bool Lia.
From Verif Require Import Base.Fld Base.Lists.
Import ListNotations.

(** [Result<A, Error>] extended with panics.  Error variants are not distinguished. *)
Inductive res (A : Type) : Type :=
| Ok (a : A)
| Err
| Panic.
Arguments Ok {A} _.
Arguments Err {A}.
Arguments Panic {A}.

Definition rbind {A B} (r : res A) (f : A -> res B) : res B :=
  match r with Ok a => f a | Err => Err | Panic => Panic end.
Notation "'try' x <- o ; k" := (rbind o (fun x => k))
  (at level 200, x pattern, o at level 100, k at level 200).

Definition of_opt {A} (o : option A) : res A := match o with Some a => Ok a | None => Panic end.

(** [.expect(..)] *)
Definition expect {A} (r : res A) : res A := match r with Ok a => Ok a | _ => Panic end.

Section Sums.
  Variable F : field.
  Local Open Scope fld_scope.
  Add Ring Fring : (f_ring F).

  Definition sumn (n : nat) (f : nat -> F) : F := fsum (map f (seq 0 n)).

  Lemma sumn_0 f : sumn 0 f = 0.
  Proof. reflexivity. Qed.

  Lemma sumn_S n f : sumn (S n) f = sumn n f + f n.
  Proof. unfold sumn. rewrite seq_S, map_app, fsum_app. cbn. ring. Qed.

  Lemma sumn_1 f : sumn 1 f = f 0%nat.
  Proof. rewrite sumn_S, sumn_0. ring. Qed.

  Lemma sumn_ext n f g : (forall i, (i < n)%nat -> f i = g i) -> sumn n f = sumn n g.
  Proof. intros H. apply fsum_map_ext. intros a Ha. apply in_seq in Ha. apply H. lia. Qed.

  Lemma sumn_zero n f : (forall i, (i < n)%nat -> f i = 0) -> sumn n f = 0.
  Proof. intros H. rewrite (sumn_ext n f (fun _ => 0)) by auto. apply fsum_map_0. Qed.

  Lemma sumn_scale n c f : sumn n (fun i => c * f i) = c * sumn n f.
  Proof. apply fsum_map_scale. Qed.

  Lemma sumn_scale_r n c f : sumn n (fun i => f i * c) = sumn n f * c.
  Proof. rewrite (sumn_ext n _ (fun i => c * f i)) by (intros; ring). rewrite sumn_scale. ring. Qed.

  Lemma sumn_add n f g : sumn n (fun i => f i + g i) = sumn n f + sumn n g.
  Proof. apply fsum_map_add. Qed.

  Lemma sumn_sub n f g : sumn n (fun i => f i - g i) = sumn n f - sumn n g.
  Proof.
    induction n; [rewrite !sumn_0; ring|]. rewrite !sumn_S, IHn. ring.
  Qed.

  Lemma sumn_swap n m (f : nat -> nat -> F) :
    sumn n (fun i => sumn m (fun j => f i j)) = sumn m (fun j => sumn n (fun i => f i j)).
  Proof. apply fsum_swap. Qed.

  Lemma sumn_split n m f : sumn (n + m) f = sumn n f + sumn m (fun i => f (n + i)%nat).
  Proof.
    induction m; [rewrite Nat.add_0_r, sumn_0; ring|].
    rewrite Nat.add_succ_r, !sumn_S, IHm. ring.
  Qed.

  (** Sum over [i < n * m] as a double sum with [i = a * m + b]. *)
  Lemma sumn_mul n m f : sumn (n * m) f = sumn n (fun a => sumn m (fun b => f (a * m + b)%nat)).
  Proof.
    induction n; [reflexivity|].
    replace (S n * m)%nat with (n * m + m)%nat by (cbn; lia). now rewrite sumn_split, sumn_S, IHn.
  Qed.

  Lemma sumn_double n f : sumn (2 * n) f = sumn n (fun i => f (2 * i)%nat + f (2 * i + 1)%nat).
  Proof.
    rewrite Nat.mul_comm, sumn_mul. apply sumn_ext. intros i Hi.
    rewrite !sumn_S, sumn_0. replace (i * 2)%nat with (2 * i)%nat by lia. rewrite Nat.add_0_r. ring.
  Qed.

  Lemma sumn_single n k f :
    (k < n)%nat -> (forall i, (i < n)%nat -> i <> k -> f i = 0) -> sumn n f = f k.
  Proof.
    intros Hk H. replace n with (k + (S (n - k - 1)))%nat by lia.
    rewrite sumn_split. rewrite sumn_zero by (intros; apply H; lia).
    replace (S (n - k - 1)) with (1 + (n - k - 1))%nat by lia. rewrite sumn_split, sumn_1.
    rewrite sumn_zero by (intros; apply H; lia). rewrite Nat.add_0_r. ring.
  Qed.

  Lemma sumn_trunc n m f : (n <= m)%nat -> (forall i, (n <= i < m)%nat -> f i = 0) -> sumn m f = sumn n f.
  Proof.
    intros L H. replace m with (n + (m - n))%nat by lia. rewrite sumn_split.
    rewrite (sumn_zero (m - n)) by (intros; apply H; lia). ring.
  Qed.

  Lemma fsum_nth (l : list F) : fsum l = sumn (length l) (fun i => nth i l 0).
  Proof.
    induction l using rev_ind; [reflexivity|].
    rewrite app_length, Nat.add_1_r, sumn_S, fsum_app. cbn [fsum].
    rewrite app_nth2, Nat.sub_diag by lia. cbn [nth]. rewrite IHl.
    rewrite (sumn_ext _ (fun i => nth i (l ++ [x]) 0) (fun i => nth i l 0)); [ring|].
    intros. now apply app_nth1.
  Qed.

  Lemma fsum_rev (l : list F) : fsum (rev l) = fsum l.
  Proof. induction l; cbn; auto. rewrite fsum_app, IHl. cbn. ring. Qed.

  (** Products over an index range. *)
  Definition prodn (n : nat) (f : nat -> F) : F := fprod (map f (seq 0 n)).

  Lemma prodn_0 f : prodn 0 f = 1.
  Proof. reflexivity. Qed.

  Lemma prodn_S n f : prodn (S n) f = prodn n f * f n.
  Proof. unfold prodn. rewrite seq_S, map_app, fprod_app. cbn. ring. Qed.

  Lemma prodn_ext n f g : (forall i, (i < n)%nat -> f i = g i) -> prodn n f = prodn n g.
  Proof.
    intros H. induction n; auto. rewrite !prodn_S, IHn, H by auto. reflexivity.
  Qed.

  Lemma prodn_split n m f : prodn (n + m) f = prodn n f * prodn m (fun i => f (n + i)%nat).
  Proof.
    induction m; [rewrite Nat.add_0_r, prodn_0; ring|].
    rewrite Nat.add_succ_r, !prodn_S, IHm. ring.
  Qed.

  Lemma prodn_mul n f g : prodn n (fun i => f i * g i) = prodn n f * prodn n g.
  Proof. induction n; [rewrite !prodn_0; ring|]. rewrite !prodn_S, IHn. ring. Qed.

  Lemma prodn_eq0 n f : prodn n f = 0 <-> exists i, (i < n)%nat /\ f i = 0.
  Proof.
    unfold prodn. rewrite fprod_eq0, in_map_iff. split.
    - intros [i [E Hi]]. apply in_seq in Hi. exists i. split; [lia|auto].
    - intros [i [Hi E]]. exists i. split; auto. apply in_seq. lia.
  Qed.
End Sums.

Arguments sumn {_} _ _.
Arguments prodn {_} _ _.

(** Flat-list helpers. *)
Lemma nth_error_nth_eq {A} (l : list A) i d : (i < length l)%nat -> nth_error l i = Some (nth i l d).
Proof. intros H. now apply nth_error_nth'. Qed.

Lemma nth_map_seq {A} (f : nat -> A) n i d : (i < n)%nat -> nth i (map f (seq 0 n)) d = f i.
Proof.
  intros H. rewrite nth_indep with (d' := f 0%nat) by (now rewrite map_length, seq_length).
  rewrite map_nth, seq_nth by auto. reflexivity.
Qed.

Lemma upd_nth {A} (l : list A) i v j d :
  nth j (upd l i v) d = if (j =? i)%nat && (i <? length l)%nat then v else nth j l d.
Proof.
  revert i j. induction l; intros [|i] [|j]; cbn; auto.
  - now rewrite andb_false_r.
  - rewrite IHl. reflexivity.
Qed.

Lemma pow2_gt0 n : (0 < 2 ^ n)%nat.
Proof. apply Nat.neq_0_lt_0. apply Nat.pow_nonzero. lia. Qed.

Lemma list_eq_nth {A} (l1 l2 : list A) d :
  length l1 = length l2 -> (forall i, (i < length l1)%nat -> nth i l1 d = nth i l2 d) -> l1 = l2.
Proof.
  intros HL H. apply nth_ext with (d := d) (d' := d); auto.
Qed.

Lemma nth_firstn_lt {A} n (l : list A) i d : (i < n)%nat -> nth i (firstn n l) d = nth i l d.
Proof.
  revert l i. induction n; intros l i H; [lia|]. destruct l; [now rewrite firstn_nil|].
  destruct i; cbn; auto. apply IHn. lia.
Qed.

Lemma nth_repeat0 {A} (a : A) n i d : (i < n)%nat -> nth i (repeat a n) d = a.
Proof. revert i. induction n; intros i H; [lia|]. destruct i; cbn; auto. apply IHn. lia. Qed.

Lemma nth_map_lt {A B} (f : A -> B) l i d d' : (i < length l)%nat -> nth i (map f l) d = f (nth i l d').
Proof.
  revert i. induction l; intros i H; cbn in *; [lia|]. destruct i; auto. apply IHl. lia.
Qed.
