(** Grouping, accumulation and tensor lemmas for the ring-switching reduction. *)
Require Import Coq.Arith.Arith Coq.Lists.List Coq.Bool.Bool Coq.setoid_ring.Ring Coq.Sorting.Permutation Lia.
From Verif Require Import Base.Fld Base.Lists Base.Sums Base.NatBits Math.MleSpec Math.MleModel Math.TensorProps Math.MleProps Protocol.Proto Protocol.Soundness
  Utils.SortModel Utils.SortProps Sumcheck.ZerocheckModel RingSwitch.TensorModel RingSwitch.TransposeProps RingSwitch.TensorProofs RingSwitch.AlgebraProps RingSwitch.SwitchModel RingSwitch.SwitchEqProps RingSwitch.SwitchSpec.
Import ListNotations.
Local Open Scope nat_scope.

Section Proofs.
  Variable F : field.
  Hypothesis C2 : char2 F.
  Variable L : nat.
  Variable E : forall kappa, option (ext F kappa).
  Local Open Scope fld_scope.
  Add Ring Fring : (f_ring F).

  Lemma sound_true {A} (good : A -> Prop) (p : vproto F A) : (forall a, good a) -> forall e, sound good e p.
  Proof.
    intros G. induction p as [[a| |]|n k IH|k IH]; intros e; try (constructor; auto; fail).
    change e with (0 + e)%nat. apply (sound_sample F good 0 e (fun _ => false)); auto. apply at_most_none.
  Qed.
  Lemma expand_ok r : exists l, expand F r = Ok l /\ length l = (2 ^ length r)%nat /\ forall x, (x < 2 ^ length r)%nat -> nth x l 0 = eqw r x.
  Proof.
    destruct (query_expand_correct F 0 r) as (q & Eq & H1 & H2 & H3 & H4). unfold expand. rewrite Eq. cbn [rbind]. exists (q_expanded q). split; [reflexivity|].
    rewrite Nat.sub_0_r in H2. split; [rewrite H2; cbn [Nat.pow]; lia|exact H4].
  Qed.

  (** *** points *)
  Lemma split_point_length kappa pt : length (fst (split_point F kappa pt)) = kappa.
  Proof. unfold split_point. destruct (Nat.ltb_spec (length pt) kappa); cbn [fst]; [rewrite app_length, repeat_length; lia|rewrite firstn_length; lia]. Qed.
  Lemma mle_zeros (f : nat -> F) n : mle f (repeat 0 n) = f 0%nat.
  Proof.
    revert f. induction n as [|n IH]; intros f; cbn [repeat]; [apply mle_nil|]. rewrite mle_cons, IH. change (2 * 0)%nat with 0%nat. ring.
  Qed.
  Lemma mle_pad (v : nat -> F) a n : mle v (a ++ repeat 0 n) = mle v a.
  Proof. rewrite mle_app_high. apply mle_ext. intros x Hx. rewrite mle_zeros. f_equal. lia. Qed.
  Lemma sumn_head n (f : nat -> F) : sumn (S n) f = f 0%nat + sumn n (fun i => f (S i)).
  Proof. rewrite (sumn_split F 1 n), sumn_1. reflexivity. Qed.
  (** the value of the packed multilinear at a point, through its partial evaluation at the suffix *)
  Definition part {kappa} (X : ext F kappa) (P : nat -> F) (suffix : list F) (j : nat) : F := sumn (2 ^ length suffix) (fun x => eqw suffix x * co X j (P x)).
  Lemma unpacked_eval kappa (X : ext F kappa) P pt : mle (unpacked F X P) pt = mle (part X P (snd (split_point F kappa pt))) (fst (split_point F kappa pt)).
  Proof.
    assert (G : forall a b, length a = kappa -> mle (unpacked F X P) (a ++ b) = mle (part X P b) a).
    { intros a b La. rewrite mle_app_high. apply mle_ext. rewrite La. intros j Hj. unfold mle, part. apply sumn_ext. intros x Hx. unfold unpacked.
      replace (j + 2 ^ kappa * x)%nat with (x * 2 ^ kappa + j)%nat by lia. rewrite Nat.div_add_l, Nat.div_small by (try apply Nat.pow_nonzero; lia). rewrite Nat.add_comm, Nat.mod_add, Nat.mod_small by (try apply Nat.pow_nonzero; lia). rewrite Nat.add_0_r. ring. }
    unfold split_point. destruct (Nat.ltb_spec (length pt) kappa) as [H|H]; cbn [fst snd].
    - rewrite <- (mle_pad _ pt (kappa - length pt)). rewrite <- (app_nil_r (pt ++ _)) at 1. apply G. rewrite app_length, repeat_length. lia.
    - rewrite <- (firstn_skipn kappa pt) at 1. apply G. rewrite firstn_length. lia.
  Qed.

  (** *** grouping *)
  Lemma eqb_list_spec a b : eqb_list F a b = true <-> a = b.
  Proof.
    unfold eqb_list. rewrite andb_true_iff, Nat.eqb_eq, forallb_forall. split.
    - intros [Hl H]. revert b Hl H. induction a as [|x a IH]; intros [|y b] Hl H; try discriminate; auto. f_equal.
      + specialize (H (x, y) (or_introl eq_refl)). cbn [fst snd] in H. now apply f_eqb.
      + apply IH; [cbn in Hl; lia|]. intros p Hp. apply H. now right.
    - intros <-. split; [reflexivity|]. intros [x y] H. cbn [fst snd]. assert (x = y); [|subst; apply feqb_refl]. revert H. induction a as [|z a IH]; [intros []|]. cbn [combine]. intros [[= -> ->]|H]; auto.
  Qed.
  Lemma position_spec {A} (p : A -> bool) l i : position p l = Some i -> exists x, nth_error l i = Some x /\ p x = true.
  Proof.
    revert i. induction l as [|x l IH]; intros i; cbn [position]; [discriminate|]. destruct (p x) eqn:Px.
    - intros [= <-]. exists x. auto.
    - destruct (position p l) as [k|] eqn:Pk; [|discriminate]. intros [= <-]. cbn [nth_error]. now apply IH.
  Qed.
  Lemma find_or_push_spec {A} (eqb : A -> A -> bool) (H : forall a b, eqb a b = true -> a = b) l x l' i : find_or_push eqb l x = (l', i) ->
    nth_error l' i = Some x /\ (exists r, l' = l ++ r /\ forall y, In y r -> y = x).
  Proof.
    unfold find_or_push. destruct (position _ l) as [k|] eqn:P.
    - intros [= <- <-]. apply position_spec in P. destruct P as (y & Hy & Ey). apply H in Ey. subst y. split; [exact Hy|]. exists []. rewrite app_nil_r. split; [reflexivity|intros y []].
    - intros [= <- <-]. split; [rewrite nth_error_app2, Nat.sub_diag by lia; reflexivity|]. exists [x]. split; [reflexivity|]. intros y [<-|[]]. reflexivity.
  Qed.
  (** what the indices of a claim refer to *)
  Definition grouped (oracles : list (option oracle)) (ps : list (list F)) (ss : list (list F * nat)) (c : eclaim F) (p s : nat) : Prop :=
    exists o, nth_error oracles (ec_id F c) = Some (Some o) /\ o_committed o = true /\ (o_level o <= L)%nat /\
      nth_error ps p = Some (fst (split_point F (L - o_level o) (ec_point F c))) /\
      nth_error ss s = Some (snd (split_point F (L - o_level o) (ec_point F c)), (L - o_level o)%nat).
  Lemma nth_error_ext {A} (l r : list A) i x : nth_error l i = Some x -> nth_error (l ++ r) i = Some x.
  Proof. intros H. rewrite nth_error_app1; auto. apply nth_error_Some. congruence. Qed.
  Lemma group_spec oracles : forall claims ps ss ps' pi ss' si, group_claims F L oracles claims ps ss = Ok (ps', pi, ss', si) ->
    (exists r, ps' = ps ++ r /\ forall y, In y r -> exists o, In (Some o) oracles /\ o_committed o = true /\ (o_level o <= L)%nat /\ length y = (L - o_level o)%nat) /\ (exists r, ss' = ss ++ r) /\
    length pi = length claims /\ length si = length claims /\
    forall i c, nth_error claims i = Some c -> grouped oracles ps' ss' c (nth i pi 0%nat) (nth i si 0%nat).
  Proof.
    induction claims as [|c claims IH]; intros ps ss ps' pi ss' si; cbn [group_claims].
    - intros [= <- <- <- <-]. split; [exists []; rewrite app_nil_r; split; [reflexivity|intros y []]|]. split; [exists []; now rewrite app_nil_r|]. repeat split; auto. intros [|i] c H; discriminate.
    - destruct (nth_error oracles (ec_id F c)) as [[o|]|] eqn:Eo; try discriminate. destruct (o_committed o) eqn:Oc; cbn [negb]; try discriminate.
      destruct (Nat.ltb_spec L (o_level o)) as [|HL]; [discriminate|]. destruct (split_point F (L - o_level o) (ec_point F c)) as [prefix suffix] eqn:SP.
      destruct (find_or_push (eqb_list F) ps prefix) as [ps1 p] eqn:FP. destruct (find_or_push _ ss (suffix, (L - o_level o)%nat)) as [ss1 s] eqn:FS.
      destruct (group_claims F L oracles claims ps1 ss1) as [[[[ps2 pi2] ss2] si2]| |] eqn:G; cbn [rbind]; try discriminate. intros [= <- <- <- <-].
      apply IH in G. destruct G as ((r1 & R1 & R1') & (r2 & R2) & Lp & Ls & H).
      apply find_or_push_spec in FP; [|intros a b; apply eqb_list_spec]. destruct FP as (FP1 & q1 & Q1 & Q1').
      apply find_or_push_spec in FS. 2:{ intros [a1 a2] [b1 b2]. cbn [fst snd]. rewrite andb_true_iff, Nat.eqb_eq, eqb_list_spec. intros [-> ->]. reflexivity. }
      destruct FS as (FS1 & q2 & Q2 & Q2').
      split.
      { exists (q1 ++ r1). rewrite R1, Q1, app_assoc. split; [reflexivity|]. intros y Hy. apply in_app_or in Hy. destruct Hy as [Hy|Hy]; [|now apply R1'].
        rewrite (Q1' y Hy). assert (X := split_point_length (L - o_level o) (ec_point F c)). rewrite SP in X. cbn [fst] in X. exists o. repeat split; auto. now apply nth_error_In in Eo. }
      split; [exists (q2 ++ r2); now rewrite R2, Q2, app_assoc|]. cbn [length]. split; [lia|]. split; [lia|].
      intros [|i] c' Hc; cbn [nth_error nth] in *; [|now apply H]. injection Hc as <-. exists o. rewrite SP. cbn [fst snd]. subst ps2 ss2. repeat split; auto; now apply nth_error_ext.
  Qed.
  Lemma make_descs_spec oracles index : forall claims si ds, make_descs F oracles index claims si = Ok ds ->
    length ds = length claims /\ forall i c, nth_error claims i = Some c -> exists k, index (ec_id F c) = Some k /\ nth_error ds i = Some (k, nth i si 0%nat, c).
  Proof.
    induction claims as [|c claims IH]; intros si ds; cbn [make_descs].
    - intros [= <-]. split; [reflexivity|]. intros [|i] c H; discriminate.
    - destruct (nth_error oracles (ec_id F c)) as [[o|]|]; try discriminate. destruct (negb _); [discriminate|]. destruct (index (ec_id F c)) as [k|] eqn:Ek; [|discriminate].
      destruct si as [|s si]; [discriminate|]. destruct (make_descs F oracles index claims si) as [r| |] eqn:M; cbn [rbind]; try discriminate. intros [= <-].
      apply IH in M. destruct M as [Lm M]. cbn [length]. split; [lia|]. intros [|i] c' Hc; cbn [nth_error nth] in *; [injection Hc as <-; eauto|now apply M].
  Qed.

  (** *** accumulation *)
  Lemma accumulate_spec n : forall c2p evals, length evals = length c2p -> Forall (fun p => (p < n)%nat) c2p ->
    exists b, accumulate_by_prefix F evals n c2p = Ok b /\ length b = n /\
      forall g, (g < n)%nat -> nth g b 0 = sumn (length c2p) (fun i => if (nth i c2p 0%nat =? g)%nat then nth i evals 0 else 0).
  Proof.
    intros c2p evals Hl Hp. unfold accumulate_by_prefix.
    assert (G : forall c2p (evals b0 : list F), length evals = length c2p -> Forall (fun p => (p < n)%nat) c2p -> length b0 = n ->
      exists b, fold_left (fun acc p => try b <- acc; match nth_error b (snd p) with Some x => Ok (upd b (snd p) (x + fst p)) | None => Panic end) (combine evals c2p) (Ok b0) = Ok b /\ length b = n /\
        forall g, (g < n)%nat -> nth g b 0 = nth g b0 0 + sumn (length c2p) (fun i => if (nth i c2p 0%nat =? g)%nat then nth i evals 0 else 0)).
    { clear Hl Hp c2p evals. induction c2p as [|p c2p IH]; intros [|e evals] b0 Hl Hp Lb; try discriminate.
      - exists b0. repeat split; auto. intros g Hg. cbn [length]. rewrite sumn_0. ring.
      - cbn [combine fold_left rbind fst snd]. inversion Hp as [|? ? Hp1 Hp2]; subst. destruct (nth_error b0 p) as [x|] eqn:Ex; [|apply nth_error_None in Ex; lia].
        destruct (IH evals (upd b0 p (x + e))) as (b & Eb & Lb' & Hb); [cbn in Hl; lia|exact Hp2|now rewrite upd_length|]. exists b. split; [exact Eb|]. split; [exact Lb'|]. intros g Hg. rewrite Hb by auto.
        cbn [length]. rewrite sumn_head. cbn [nth]. destruct (Nat.eqb_spec p g) as [->|N].
        + rewrite nth_upd_eq by lia. rewrite (nth_error_nth _ _ 0 Ex). ring.
        + rewrite nth_upd_neq by auto. ring. }
    destruct (G c2p evals (repeat 0 n) Hl Hp (repeat_length _ _)) as (b & Eb & Lb & Hb). exists b. repeat split; auto. intros g Hg. rewrite Hb by auto. rewrite nth_repeat. ring.
  Qed.
End Proofs.
