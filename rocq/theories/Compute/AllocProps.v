(** C47: the slices handed out by the bump allocator are pairwise disjoint, inside the buffer, of
    the requested length, never exceed the capacity; an out-of-memory failure changes nothing.  For
    every sequence of allocations and nested scopes (a concurrent execution is such a sequence, the
    allocator being locked during a call). *)
Require Import Coq.Arith.Arith Coq.Lists.List Coq.Bool.Bool Lia.
Require Import Verif.Math.MleModel.
Require Import Verif.Compute.AllocModel.
Import ListNotations.

(** * Specification *)
(** The positions of a slice. *)
Definition covers (s : iv) (p : nat) : Prop := iv_lo s <= p < iv_lo s + iv_len s.
Definition disjoint (s t : iv) : Prop := forall p, covers s p -> covers t p -> False.
Definition inside (s t : iv) : Prop := forall p, covers s p -> covers t p.
Definition total_len (l : list iv) : nat := fold_right (fun s n => iv_len s + n) 0 l.
(** Requests the documentation allows, or the extension for small powers of two. *)
Definition good_request (A n : nat) : Prop :=
  0 < n /\ (n mod A = 0 \/ (n < A /\ exists k, n = 2 ^ k)).

Lemma p2_pos k : 0 < 2 ^ k.
Proof. apply Nat.neq_0_lt_0, Nat.pow_nonzero. lia. Qed.

Section P.
Variable a : nat.
Let A := 2 ^ a.

Lemma A_pos : 0 < A.
Proof. apply p2_pos. Qed.

Lemma is_pow2_spec n : is_pow2 n = true <-> exists k, n = 2 ^ k.
Proof.
  unfold is_pow2. rewrite andb_true_iff, Nat.ltb_lt, Nat.eqb_eq. split.
  - intros [_ H]. eauto.
  - intros [k ->]. split; [apply p2_pos|]. now rewrite Nat.log2_pow2 by lia.
Qed.

Lemma halve_correct k : forall b m, iv_len b = 2 ^ (k + m) ->
  halve k b = Some (mkIv (iv_lo b) (2 ^ m)).
Proof.
  induction k as [|k IH]; intros b m H; cbn [halve].
  - destruct b as [lo len]. cbn in *. now subst.
  - unfold split_half_mut. rewrite (proj2 (is_pow2_spec _)) by eauto.
    assert (L : 1 < iv_len b).
    { rewrite H. change (2 ^ 0 < 2 ^ (S k + m)). apply Nat.pow_lt_mono_r; lia. }
    rewrite (proj2 (Nat.ltb_lt _ _) L). cbn [andb].
    rewrite (IH _ m); [reflexivity|]. cbn [iv_len]. rewrite H.
    change (S k + m) with (S (k + m)). rewrite Nat.pow_succ_r', Nat.mul_comm. apply Nat.div_mul. lia.
Qed.

(** The complete behaviour of one allocation on a live allocator whose buffer is aligned. *)
Theorem alloc_behaviour b n :
  (iv_len b < n -> alloc A (Some b) n = (Some b, AOutOfMemory))
  /\ (n <= iv_len b -> good_request A n -> iv_len b mod A = 0 ->
      alloc A (Some b) n = (Some (mkIv (iv_lo b + Nat.max n A) (iv_len b - Nat.max n A)),
                            AOk (mkIv (iv_lo b) n)))
  /\ (n <= iv_len b -> ~ good_request A n -> alloc A (Some b) n = (None, APanic)).
Proof.
  pose proof A_pos as HA. unfold alloc. split; [|split].
  - intros H. now rewrite (proj2 (Nat.ltb_lt _ _) H).
  - intros H [Hn G] HL. rewrite (proj2 (Nat.ltb_ge _ _)) by exact H.
    assert (HAb : A <= iv_len b).
    { destruct (Nat.lt_ge_cases (iv_len b) A) as [L|L]; [|exact L].
      rewrite Nat.mod_small in HL by exact L. lia. }
    assert (HM : Nat.max n A mod A = 0 /\ Nat.max n A <= iv_len b).
    { split; [|lia]. destruct (Nat.max_spec n A) as [[L ->]|[L ->]].
      - apply Nat.mod_same. lia.
      - destruct G as [G|[G _]]; [exact G|lia]. }
    unfold split_at_mut. rewrite (proj2 (Nat.eqb_eq _ _)) by apply HM.
    rewrite (proj2 (Nat.ltb_ge _ _)) by apply HM. cbn [negb orb].
    destruct (Nat.ltb_spec n A) as [L|L].
    + destruct G as [G|[_ [k Hk]]]; [rewrite Nat.mod_small in G by exact L; lia|].
      rewrite (proj2 (is_pow2_spec n)) by eauto.
      assert (Hka : k < a).
      { apply (Nat.pow_lt_mono_r_iff 2); [lia|]. rewrite <- Hk. exact L. }
      unfold A at 1. rewrite Hk, !Nat.log2_pow2 by lia. rewrite <- Hk.
      rewrite (halve_correct _ _ k).
      * cbn [iv_lo]. now rewrite Hk.
      * cbn [iv_len]. rewrite (Nat.max_r n A) by lia. unfold A. f_equal. lia.
    + rewrite Nat.max_l by lia. reflexivity.
  - intros H G. rewrite (proj2 (Nat.ltb_ge _ _)) by exact H.
    unfold split_at_mut.
    destruct (Nat.eqb_spec (Nat.max n A mod A) 0) as [E|E]; cbn [negb orb]; [|reflexivity].
    destruct (Nat.ltb_spec (iv_len b) (Nat.max n A)) as [L|L]; [reflexivity|].
    destruct (Nat.ltb_spec n A) as [Ln|Ln].
    + destruct (is_pow2 n) eqn:Ep; [|reflexivity]. exfalso. apply G.
      apply is_pow2_spec in Ep. split.
      * destruct Ep as [k ->]. apply p2_pos.
      * right. split; [exact Ln|exact Ep].
    + exfalso. apply G. rewrite Nat.max_l in E by exact Ln. split; [lia|]. now left.
Qed.

(** What a successful call yields, without assumptions on the request. *)
Lemma alloc_ok b n b' s : alloc A (Some b) n = (b', AOk s) ->
  iv_len s = n /\ iv_lo s = iv_lo b /\ exists r, b' = Some r
    /\ iv_lo r = iv_lo b + Nat.max n A /\ iv_lo r + iv_len r = iv_lo b + iv_len b.
Proof.
  pose proof A_pos as HA. unfold alloc.
  destruct (iv_len b <? n) eqn:E1; [discriminate|]. apply Nat.ltb_ge in E1.
  unfold split_at_mut.
  destruct (negb (Nat.max n A mod A =? 0)); cbn [orb]; [discriminate|].
  destruct (Nat.ltb_spec (iv_len b) (Nat.max n A)) as [L|L]; [discriminate|].
  destruct (Nat.ltb_spec n A) as [Ln|Ln].
  - destruct (is_pow2 n) eqn:Ep; [|discriminate]. apply is_pow2_spec in Ep. destruct Ep as [k Hk].
    assert (Hka : k < a).
    { apply (Nat.pow_lt_mono_r_iff 2); [lia|]. rewrite <- Hk. exact Ln. }
    unfold A at 1. rewrite Hk, !Nat.log2_pow2 by lia. rewrite <- Hk.
    rewrite (halve_correct _ _ k) by (cbn [iv_len]; rewrite (Nat.max_r n A) by lia; unfold A; f_equal; lia).
    intros H. injection H as <- <-. cbn [iv_len iv_lo]. split; [now rewrite Hk|]. split; [reflexivity|].
    eexists. split; [reflexivity|]. cbn [iv_len iv_lo]. lia.
  - intros H. injection H as <- <-. cbn [iv_len iv_lo]. split; [lia|]. split; [reflexivity|].
    eexists. split; [reflexivity|]. cbn [iv_len iv_lo]. lia.
Qed.

(** A failed allocation leaves the allocator as it was. *)
Theorem alloc_failure_unchanged b n b' :
  alloc A (Some b) n = (b', AOutOfMemory) -> b' = Some b /\ iv_len b < n.
Proof.
  unfold alloc. destruct (Nat.ltb_spec (iv_len b) n) as [L|L].
  - intros H. injection H as <-. now split.
  - destruct (split_at_mut _ _ _) as [[lhs rhs]|]; [|discriminate].
    destruct (n <? A); [|discriminate]. destruct (is_pow2 n); [|discriminate].
    destruct (halve _ _); discriminate.
Qed.

(** ** Histories *)
Variable b0 : iv.
Let E := iv_lo b0 + iv_len b0.

(** The slices of [l], latest first, lie one below the other, under [top] and above the buffer's
    start. *)
Fixpoint desc (top : nat) (l : list iv) : Prop :=
  match l with
  | [] => iv_lo b0 <= top
  | s :: l' => iv_lo s + iv_len s <= top /\ desc (iv_lo s) l'
  end.

Fixpoint inv (st : list (option iv * list iv)) : Prop :=
  match st with
  | [] => True
  | (b, live) :: rest =>
    (exists t, t <= E /\ desc t (live ++ live_slices rest)
       /\ forall r, b = Some r -> iv_lo r = t /\ t + iv_len r = E)
    /\ inv rest
  end.

Lemma desc_mono t t' l : t <= t' -> desc t l -> desc t' l.
Proof. destruct l; cbn; intros; [lia|]. split; [lia|tauto]. Qed.

Lemma desc_lo t l : desc t l -> iv_lo b0 <= t.
Proof. revert t. induction l as [|s l IH]; cbn; intros t H; [exact H|]. destruct H as [H1 H2]. apply IH in H2. lia. Qed.

Lemma inv_init : inv [(bump_new b0, [])].
Proof.
  cbn. split; [|exact I]. exists (iv_lo b0). split; [unfold E; lia|]. split; [lia|].
  intros r H. injection H as <-. unfold E. lia.
Qed.

Lemma step_inv st o : inv st -> inv (fst (step A st o)).
Proof.
  intros H. destruct st as [|[b live] rest]; [exact I|]. destruct o as [n| |]; cbn [step].
  - destruct b as [b|].
    2: { cbn [alloc fst]. exact H. }
    destruct (alloc A (Some b) n) as [b' r] eqn:Ea. cbn [inv] in H.
    destruct H as [[t [Ht [Hd Hb]]] Hr]. destruct (Hb b eq_refl) as [Hlo Hend].
    destruct r as [s| |]; cbn [fst inv].
    + apply alloc_ok in Ea. destruct Ea as [Ls [Los [r [-> [Lor Er]]]]].
      split; [|exact Hr]. exists (iv_lo r). split; [lia|]. split.
      * cbn [app desc]. split; [lia|]. now rewrite Los, Hlo.
      * intros r' Hr'. injection Hr' as <-. lia.
    + apply alloc_failure_unchanged in Ea. destruct Ea as [-> _].
      split; [|exact Hr]. exists t. auto.
    + split; [|exact Hr]. exists t. split; [exact Ht|]. split; [exact Hd|].
      intros r' Hr'. subst b'. exfalso. revert Ea. unfold alloc.
      destruct (iv_len b <? n); [discriminate|].
      destruct (split_at_mut _ _ _) as [[lhs rhs]|]; [|discriminate].
      destruct (n <? A); [|discriminate]. destruct (is_pow2 n); [|discriminate].
      destruct (halve _ _); discriminate.
  - cbn [fst inv]. split; [|exact H]. cbn [inv] in H. destruct H as [[t [Ht [Hd Hb]]] Hr].
    exists t. split; [exact Ht|]. split; [|exact Hb]. exact Hd.
  - destruct rest as [|f rest']; cbn [fst]; [exact H|]. cbn [inv] in H. exact (proj2 H).
Qed.

Lemma run_inv h : forall st, inv st -> inv (run A st h).
Proof.
  induction h as [|o h IH]; intros st H; [exact H|]. cbn [run fold_left]. apply IH. now apply step_inv.
Qed.

Lemma desc_below t l s : desc t l -> In s l -> iv_lo b0 <= iv_lo s /\ iv_lo s + iv_len s <= t.
Proof.
  revert t. induction l as [|x l IH]; intros t H Hin; [easy|]. cbn in H. destruct H as [H1 H2].
  destruct Hin as [->|Hin].
  - split; [now apply desc_lo in H2|exact H1].
  - destruct (IH _ H2 Hin). lia.
Qed.

Lemma desc_disjoint t l i j s u : desc t l -> i < j ->
  nth_error l i = Some s -> nth_error l j = Some u -> iv_lo u + iv_len u <= iv_lo s.
Proof.
  revert t i j. induction l as [|x l IH]; intros t i j H Hij Hi Hj; [destruct i; discriminate|].
  cbn in H. destruct H as [H1 H2]. destruct j as [|j]; [lia|]. destruct i as [|i]; cbn in Hi, Hj.
  - injection Hi as ->. apply nth_error_In in Hj. now apply (desc_below _ _ _ H2).
  - apply (IH _ i j H2); [lia|exact Hi|exact Hj].
Qed.

Lemma desc_total t l : desc t l -> total_len l + iv_lo b0 <= t.
Proof.
  revert t. induction l as [|x l IH]; intros t H; [exact H|]. cbn [total_len fold_right].
  destruct H as [H1 H2]. apply IH in H2. unfold total_len in H2. lia.
Qed.

(** After any history from a fresh allocator over the buffer [b0]:
    the live slices are inside the buffer and pairwise disjoint, their total length together with
    the remaining capacity does not exceed the buffer, and the memory still to be handed out is
    inside the buffer and disjoint from every live slice. *)
Theorem allocations_disjoint (h : list aop) :
  let st := run A [(bump_new b0, [])] h in
  (forall s, In s (live_slices st) -> inside s b0)
  /\ (forall i j s u, i <> j -> nth_error (live_slices st) i = Some s ->
        nth_error (live_slices st) j = Some u -> disjoint s u)
  /\ total_len (live_slices st) <= iv_len b0
  /\ (forall r live rest, st = (Some r, live) :: rest ->
        inside r b0 /\ total_len (live_slices st) + iv_len r <= iv_len b0
        /\ forall s, In s (live_slices st) -> disjoint s r).
Proof.
  intros st. pose proof (run_inv h _ inv_init) as H. fold st in H. clearbody st.
  destruct st as [|[b live] rest].
  - cbn. split; [easy|]. split; [intros i j s u _ Hi; destruct i; discriminate|]. split; [lia|]. discriminate.
  - cbn [inv] in H. destruct H as [[t [Ht [Hd Hb]]] _].
    change (live_slices ((b, live) :: rest)) with (live ++ live_slices rest).
    set (l := live ++ live_slices rest) in *. unfold E in *.
    split; [|split; [|split]].
    + intros s Hs p Hp. destruct (desc_below _ _ _ Hd Hs). unfold covers in *. lia.
    + intros i j s u Hij Hi Hj p Hp Hq. unfold covers in Hp, Hq.
      destruct (Nat.lt_trichotomy i j) as [L|[L|L]]; [|easy|].
      * pose proof (desc_disjoint _ _ _ _ _ _ Hd L Hi Hj). lia.
      * pose proof (desc_disjoint _ _ _ _ _ _ Hd L Hj Hi). lia.
    + apply desc_total in Hd. lia.
    + intros r live' rest' Eq. injection Eq as -> <- <-. destruct (Hb r eq_refl) as [H1 H2].
      pose proof (desc_lo _ _ Hd). split; [|split].
      * intros p Hp. unfold covers in *. lia.
      * apply desc_total in Hd. lia.
      * intros s Hs p Hp Hq. destruct (desc_below _ _ _ Hd Hs). unfold covers in *. lia.
Qed.

(** Leaving a scope gives back exactly the memory that was available when it was opened. *)
Theorem scope_restores st h :
  (forall k, k <= length h -> length st < length (run A (fst (step A st Enter)) (firstn k h))) ->
  st <> [] ->
  exists top, run A (fst (step A st Enter)) h = top ++ st /\ top <> [].
Proof.
  destruct st as [|[b live] rest]; [easy|]. intros H _. cbn [step fst] in *.
  set (st := (b, live) :: rest) in *.
  assert (G : forall k, k <= length h -> exists top, run A ((b, []) :: st) (firstn k h) = top ++ st /\ top <> []).
  { induction k as [|k IH]; intros Hk.
    - exists [(b, [])]. split; [reflexivity|discriminate].
    - destruct IH as [top [Et Nt]]; [lia|].
      destruct (nth_error h k) as [o|] eqn:Eo.
      2: { apply nth_error_None in Eo. lia. }
      assert (F : firstn (S k) h = firstn k h ++ [o]).
      { apply nth_error_split in Eo. destruct Eo as [l1 [l2 [-> Hl]]]. subst k.
        rewrite firstn_app, firstn_all2 by lia. rewrite firstn_app, firstn_all.
        replace (S (length l1) - length l1) with 1 by lia. rewrite Nat.sub_diag. cbn.
        now rewrite app_nil_r. }
      pose proof (H (S k) Hk) as HS. rewrite F in *.
      unfold run in *. rewrite fold_left_app in *. rewrite Et in *. cbn [fold_left] in *.
      destruct top as [|[b1 l1] top]; [easy|]. cbn [app step] in *.
      destruct o as [n| |].
      + destruct (alloc A b1 n) as [b' [s| |]]; cbn [fst] in *; eexists; (split; [|]).
        1: { rewrite app_comm_cons. reflexivity. } 1: discriminate.
        1: { rewrite app_comm_cons. reflexivity. } 1: discriminate.
        1: { rewrite app_comm_cons. reflexivity. } discriminate.
      + cbn [fst] in *. exists ((b1, []) :: (b1, l1) :: top). split; [reflexivity|discriminate].
      + destruct (top ++ st) as [|f r] eqn:Ets.
        * destruct top; discriminate.
        * cbn [fst] in *. exists top. split; [now rewrite Ets|].
          intros ->. cbn in Ets. rewrite <- Ets in HS. lia. }
  destruct (G (length h) (le_n _)) as [top [Et Nt]]. rewrite firstn_all in Et. eauto.
Qed.
End P.

(** A request for zero elements, which the documented precondition allows (0 is a multiple of every
    alignment), panics and poisons the allocator, on every memory and every live buffer. *)
Theorem alloc_zero_panics_refuted a b : alloc (2 ^ a) (Some b) 0 = (None, APanic).
Proof. apply alloc_behaviour; [lia|]. intros [H _]. lia. Qed.

(** Concrete histories: host memory (alignment 1) with a scope, and packed memory (alignment 4) with
    a small request. *)
Fact alloc_ex :
  let st := run 1 [(bump_new (mkIv 0 256), [])] [Alloc 100; Enter; Alloc 100; Alloc 100; Enter; Alloc 56; Leave; Alloc 1] in
  live_slices st = [mkIv 200 1; mkIv 100 100; mkIv 0 100]
  /\ map (fun f => capacity (fst f)) st = [Some 55; Some 156].
Proof. split; reflexivity. Qed.

Fact alloc_small_ex :
  alloc 4 (Some (mkIv 8 12)) 2 = (Some (mkIv 12 8), AOk (mkIv 8 2))
  /\ good_request 4 2 /\ ~ good_request 4 6
  /\ alloc 4 (Some (mkIv 8 12)) 6 = (None, APanic)
  /\ alloc 4 (Some (mkIv 8 12)) 13 = (Some (mkIv 8 12), AOutOfMemory).
Proof.
  split; [reflexivity|]. split; [split; [lia|right; split; [lia|now exists 1]]|].
  split; [|split; reflexivity]. intros [_ [H|[H _]]]; [discriminate|lia].
Qed.
