(** Soundness of interactive protocols, independent of any protocol.

    [sound good e p]: against any prover, in every execution of the verifier [p], as long as no
    challenge falls into a set fixed before it is drawn, every output the verifier accepts satisfies
    [good]; along every execution the sizes of those sets add up to at most [e].
    [sound_count] turns this into a count over challenge vectors: for any strategy, of the [s^k]
    vectors with entries in a set of [s] field elements, at most a fraction [e / s] make the verifier
    accept an output that is not [good]. *)
Require Import Coq.Arith.Arith Coq.Lists.List Coq.Bool.Bool Lia.
From Verif Require Import Base.Fld Base.Lists Base.Sums Base.Poly Protocol.Proto.
Import ListNotations.

Section Spec.
  Variable F : field.

  (** at most [d] elements satisfy [b] *)
  Definition at_most (d : nat) (b : F -> bool) : Prop :=
    forall l, NoDup l -> (forall x, In x l -> b x = true) -> (length l <= d)%nat.

  Inductive sound {A} (good : A -> Prop) : nat -> vproto F A -> Prop :=
  | sound_err e : sound good e (VRet Err)
  | sound_panic e : sound good e (VRet Panic)
  | sound_ok e a : good a -> sound good e (VRet (Ok a))
  | sound_read e n k : (forall l, length l = n -> sound good e (k l)) -> sound good e (VRead n k)
  | sound_sample d e (b : F -> bool) k : at_most d b -> (forall c, b c = false -> sound good e (k c)) ->
      sound good (d + e) (VSample k).
End Spec.

Arguments at_most {_} _ _.
Arguments sound {_ A} _ _ _.

Section Proofs.
  Variable F : field.

  Lemma sound_mono {A} (good good' : A -> Prop) e e' (p : vproto F A) :
    sound good e p -> (e <= e')%nat -> (forall a, good a -> good' a) -> sound good' e' p.
  Proof.
    intros H. revert e'. induction H as [e|e|e a H|e n k H IH|d e b k HB H IH]; intros e' L HI.
    - constructor.
    - constructor.
    - constructor. now apply HI.
    - constructor. intros l Hl. now apply IH.
    - replace e' with (d + (e' - d))%nat by lia. apply (sound_sample F good' d _ b); auto.
      intros c Hc. apply IH; auto. lia.
  Qed.

  (** Sequencing. *)
  Lemma sound_bind {A B} (good1 : A -> Prop) (good : B -> Prop) e1 e2 (p : vproto F A) f :
    sound good1 e1 p -> (forall a, good1 a -> sound good e2 (f a)) -> sound good (e1 + e2) (vbind p f).
  Proof.
    intros H HF. induction H as [e|e|e a H|e n k H IH|d e b k HB H IH]; cbn [vbind].
    - constructor.
    - constructor.
    - apply (sound_mono good good e2); auto; lia.
    - constructor. intros l Hl. now apply IH.
    - rewrite <- Nat.add_assoc. apply (sound_sample F good d _ b); auto.
  Qed.

  Lemma sound_bind0 {A B} (good : B -> Prop) e (r : res A) (f : A -> vproto F B) :
    (forall a, r = Ok a -> sound good e (f a)) -> sound good e (vbind (VRet r) f).
  Proof. intros H. destruct r; cbn [vbind]; [auto|constructor|constructor]. Qed.

  (** A step that draws no challenge. *)
  Lemma sound_bind_read {B} (good : B -> Prop) e n (f : list F -> vproto F B) :
    (forall l, length l = n -> sound good e (f l)) -> sound good e (vbind (vread n) f).
  Proof. intros H. cbn [vbind]. now constructor. Qed.

  Lemma sound_bind_sample {B} (good : B -> Prop) d e b (f : F -> vproto F B) :
    at_most d b -> (forall c, b c = false -> sound good e (f c)) -> sound good (d + e) (vbind vsample f).
  Proof. intros HB H. cbn [vbind]. now apply (sound_sample F good d e b). Qed.

  Lemma sound_assoc {A B C} (good : C -> Prop) e (p : vproto F A) (f : A -> vproto F B) (g : B -> vproto F C) :
    sound good e (vbind p (fun a => vbind (f a) g)) -> sound good e (vbind (vbind p f) g).
  Proof.
    revert e. induction p as [[a| |]|n k IH|k IH]; intros e; cbn [vbind]; auto.
    - intros H. inversion H; subst. constructor. intros l Hl. apply IH. auto.
    - intros H. inversion H; subst. apply (sound_sample F good d e0 b); auto.
  Qed.

  (* ---------------------------------------------------------------- *)
  (** Nonzero polynomials have few roots. *)
  Lemma roots_at_most (c : list F) d : (length c <= S d)%nat -> (exists i, nth i c f0 <> f0) ->
    at_most d (fun x => feqb (peval c x) f0).
  Proof.
    intros HL [i Hi] l ND HR. destruct (Nat.le_gt_cases (length l) d) as [|G]; auto. exfalso.
    assert (Z : Forall (fun a => a = f0) c).
    { apply (roots_zero F c l ND); [lia|]. intros r Hr. apply f_eqb. now apply HR. }
    apply Hi. rewrite Forall_forall in Z.
    destruct (Nat.lt_ge_cases i (length c)) as [Lt|Ge]; [|now apply nth_overflow].
    apply Z. now apply nth_In.
  Qed.

  Lemma at_most_none d : at_most d (fun _ : F => false).
  Proof. intros [|x l] _ H; [cbn; lia|]. discriminate (H x (or_introl eq_refl)). Qed.

  Lemma at_most_le d d' b : @at_most F d b -> (d <= d')%nat -> at_most d' b.
  Proof. intros H L l ND HB. specialize (H l ND HB). lia. Qed.

  (* ---------------------------------------------------------------- *)
  (** Counting. *)
  Definition veq_dec : forall v w : list F, {v = w} + {v <> w} := list_eq_dec (feq_dec F).

  (** the tails of the vectors of [L] that start with [c] *)
  Definition tails (c : F) (L : list (list F)) : list (list F) :=
    flat_map (fun v => match v with
                       | x :: v' => if feqb x c then [v'] else []
                       | [] => []
                       end) L.

  Lemma tails_in c L v : In v (tails c L) <-> In (c :: v) L.
  Proof.
    unfold tails. rewrite in_flat_map. split.
    - intros [[|x w] [H1 H2]]; [destruct H2|]. destruct (feqb_spec F x c) as [->|]; [|destruct H2].
      destruct H2 as [<-|[]]. exact H1.
    - intros H. exists (c :: v). split; auto. rewrite feqb_refl. now left.
  Qed.

  Lemma tails_nodup c L : NoDup L -> NoDup (tails c L).
  Proof.
    induction 1 as [|v L NI ND IH]; [constructor|]. unfold tails. cbn [flat_map].
    destruct v as [|x w]; [exact IH|]. destruct (feqb_spec F x c) as [->|]; [|exact IH].
    constructor; [|exact IH]. intros H. now apply NI, tails_in.
  Qed.

  Lemma tails_split (S : list F) L : NoDup S -> (forall v, In v L -> exists c w, v = c :: w /\ In c S) ->
    length L = list_sum (map (fun c => length (tails c L)) S).
  Proof.
    intros NS. induction L as [|v L IH]; intros HL.
    - cbn. clear. induction S; cbn; auto.
    - destruct (HL v (or_introl eq_refl)) as [c [w [-> HC]]].
      cbn [length]. rewrite IH by (intros; apply HL; now right). clear IH HL.
      assert (E : forall d, length (tails d ((c :: w) :: L)) = ((if feqb c d then 1 else 0) + length (tails d L))%nat).
      { intros d. unfold tails. cbn [flat_map]. rewrite app_length. now destruct (feqb c d). }
      induction NS as [|s S NI NS IH]; [destruct HC|]. cbn [map list_sum fold_right]. fold (list_sum (map (fun d => length (tails d ((c :: w) :: L))) S)).
      fold (list_sum (map (fun d => length (tails d L)) S)). rewrite E. destruct HC as [->|HC].
      + rewrite feqb_refl.
        assert (E2 : map (fun d => length (tails d ((c :: w) :: L))) S = map (fun d => length (tails d L)) S).
        { apply map_ext_in. intros d Hd. rewrite E. destruct (feqb_spec F c d) as [->|]; [contradiction|reflexivity]. }
        rewrite E2. lia.
      + rewrite <- (IH HC). destruct (feqb_spec F c s) as [->|]; [contradiction|]. lia.
  Qed.

  Lemma all_vectors_bound (S : list F) k : forall L, NoDup S -> NoDup L ->
    (forall v, In v L -> length v = k /\ incl v S) -> (length L <= length S ^ k)%nat.
  Proof.
    induction k as [|k IH]; intros L NS NL HL.
    - destruct L as [|v [|w L]]; cbn; try lia. exfalso.
      destruct (HL v (or_introl eq_refl)) as [Lv _], (HL w (or_intror (or_introl eq_refl))) as [Lw _].
      destruct v, w; try discriminate. inversion NL. apply H1. now left.
    - rewrite (tails_split S L NS).
      2:{ intros v Hv. destruct (HL v Hv) as [Lv Iv]. destruct v as [|c w]; [discriminate|].
          exists c, w. split; auto. apply Iv. now left. }
      cbn [Nat.pow]. rewrite Nat.mul_comm.
      assert (G : forall T, incl T S -> (list_sum (map (fun c => length (tails c L)) T) <= length S ^ k * length T)%nat).
      { induction T as [|c T IHT]; intros HT; [cbn; lia|]. cbn [map list_sum fold_right length].
        fold (list_sum (map (fun c => length (tails c L)) T)).
        assert (length (tails c L) <= length S ^ k)%nat.
        { apply IH; auto. - now apply tails_nodup. - intros v Hv. apply tails_in in Hv. destruct (HL _ Hv) as [Lv Iv].
          cbn in Lv. split; [lia|]. intros x Hx. apply Iv. now right. }
        specialize (IHT (fun x Hx => HT x (or_intror Hx))). lia. }
      apply G. intros x Hx; exact Hx.
  Qed.

  (** For every prover strategy and every set [S] of field elements, the list of challenge vectors over
      [S] that make the verifier accept an output that is not good has at most [e * |S|^k / |S|] elements. *)
  Theorem sound_count {A} (good : A -> Prop) e (p : vproto F A) : sound good e p ->
    forall (strategy : list F -> nat -> list F) (S : list F) (k : nat) (L : list (list F)),
      NoDup S -> NoDup L ->
      (forall cs, In cs L -> length cs = k /\ incl cs S /\ exists a, vplay p strategy [] 0 cs = Ok a /\ ~ good a) ->
      (length L * length S <= e * length S ^ k)%nat.
  Proof.
    intros HS strategy S k L NS. generalize (@nil F) as hist. generalize 0%nat as sent. intros sent hist NL HL. revert k L hist sent NL HL.
    induction HS as [e|e|e a H|e n f H IH|d e b f HB H IH]; intros kk L hist sent NL HL.
    - destruct L as [|v L]; [cbn; lia|]. destruct (HL v (or_introl eq_refl)) as [_ [_ [a [E _]]]]. discriminate.
    - destruct L as [|v L]; [cbn; lia|]. destruct (HL v (or_introl eq_refl)) as [_ [_ [a [E _]]]]. discriminate.
    - destruct L as [|v L]; [cbn; lia|]. destruct (HL v (or_introl eq_refl)) as [_ [_ [a' [E B]]]].
      cbn in E. injection E as <-. contradiction.
    - cbn [vplay] in HL. destruct (Nat.eqb_spec (length (strategy hist sent)) n) as [E|NE].
      + apply (IH _ E kk L hist (Datatypes.S sent)); auto.
      + destruct L as [|v L]; [cbn; lia|]. destruct (HL v (or_introl eq_refl)) as [_ [_ [a' [E B]]]]. discriminate.
    - destruct kk as [|k].
      + destruct L as [|v L]; [cbn; lia|]. destruct (HL v (or_introl eq_refl)) as [Lv [_ [a' [E B]]]].
        destruct v; discriminate.
      + assert (HT : forall c, NoDup (tails c L)) by (intros; now apply tails_nodup).
        rewrite (tails_split S L NS).
        2:{ intros v Hv. destruct (HL v Hv) as [Lv [Iv _]]. destruct v as [|c w]; [discriminate|].
            exists c, w. split; auto. apply Iv. now left. }
        assert (ALL : forall c, (length (tails c L) <= length S ^ k)%nat).
        { intros c. apply all_vectors_bound; auto. intros v Hv. apply tails_in in Hv. destruct (HL _ Hv) as [Lv [Iv _]].
          cbn in Lv. split; [lia|]. intros x Hx. apply Iv. now right. }
        assert (GOOD : forall c, b c = false -> (length (tails c L) * length S <= e * length S ^ k)%nat).
        { intros c Hc. apply (IH c Hc k (tails c L) (hist ++ [c]) sent); auto.
          intros v Hv. apply tails_in in Hv. destruct (HL _ Hv) as [Lv [Iv X]]. cbn in Lv. split; [lia|].
          split; [intros x Hx; apply Iv; now right|exact X]. }
        assert (G : forall T, NoDup T ->
          (list_sum (map (fun c => length (tails c L)) T) * length S
             <= length (filter b T) * (length S ^ k * length S) + length T * (e * length S ^ k))%nat).
        { induction T as [|c T IHT]; intros NT; [cbn; lia|]. inversion NT as [|c' T' NI NT']; subst c' T'.
          specialize (IHT NT'). cbn [map list_sum fold_right length filter].
          fold (list_sum (map (fun c => length (tails c L)) T)).
          destruct (b c) eqn:BC; cbn [length].
          - pose proof (ALL c) as A1. pose proof (Nat.mul_le_mono_r _ _ (length S) A1). lia.
          - pose proof (GOOD c BC) as A1. lia. }
        specialize (G S NS).
        assert (FB : (length (filter b S) <= d)%nat).
        { apply HB; [now apply NoDup_filter|]. intros x Hx. now apply filter_In in Hx. }
        pose proof (Nat.mul_le_mono_r _ _ (length S ^ k * length S) FB) as M.
        cbn [Nat.pow]. rewrite Nat.mul_add_distr_r. rewrite (Nat.mul_comm (length S) (length S ^ k)).
        replace (e * (length S ^ k * length S))%nat with (length S * (e * length S ^ k))%nat by lia. lia.
  Qed.

End Proofs.
