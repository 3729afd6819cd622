(** List and option helpers shared by the models: indexed update, loops that may panic (None). *)
Require Import Coq.Arith.Arith Coq.Lists.List Coq.Bool.Bool Coq.Logic.FinFun Lia.
Import ListNotations.

(** [l\[i\] = v] (the callers check the bound). *)
Fixpoint upd {A} (l : list A) (i : nat) (v : A) : list A :=
  match l, i with
  | [], _ => []
  | _ :: t, O => v :: t
  | x :: t, S i' => x :: upd t i' v
  end.

Definition obind {A B} (o : option A) (f : A -> option B) : option B :=
  match o with Some a => f a | None => None end.
Notation "'do' x <- o ; k" := (obind o (fun x => k))
  (at level 200, x pattern, o at level 100, k at level 200).

(** A `for` loop whose body may panic. *)
Fixpoint ofold {A B} (f : A -> B -> option A) (l : list B) (a : A) : option A :=
  match l with
  | [] => Some a
  | b :: t => match f a b with Some a' => ofold f t a' | None => None end
  end.

Fixpoint omap {A B} (f : A -> option B) (l : list A) : option (list B) :=
  match l with
  | [] => Some []
  | a :: t => match f a, omap f t with Some b, Some r => Some (b :: r) | _, _ => None end
  end.

(** One step of an in-place loop over two positions of a slice. *)
Definition pair_step {A} (f : nat -> nat -> A -> A -> option (A * A)) (l : list A) (p : nat * nat)
  : option (list A) :=
  match nth_error l (fst p), nth_error l (snd p) with
  | Some x, Some y =>
    match f (fst p) (snd p) x y with
    | Some (x', y') => Some (upd (upd l (fst p) x') (snd p) y')
    | None => None
    end
  | _, _ => None
  end.

Lemma upd_length {A} (l : list A) i v : length (upd l i v) = length l.
Proof. revert i. induction l; destruct i; cbn; auto. Qed.

Lemma nth_error_upd {A} (l : list A) i v j :
  nth_error (upd l i v) j = if (j =? i) then (if i <? length l then Some v else None) else nth_error l j.
Proof.
  revert i j. induction l; intros [|i] [|j]; cbn; auto.
  - destruct (j =? i); reflexivity.
  - rewrite IHl. reflexivity.
Qed.

Lemma nth_error_upd_eq {A} (l : list A) i v : i < length l -> nth_error (upd l i v) i = Some v.
Proof. intros. rewrite nth_error_upd, Nat.eqb_refl. now rewrite (proj2 (Nat.ltb_lt _ _) H). Qed.
Lemma nth_error_upd_ne {A} (l : list A) i v j : j <> i -> nth_error (upd l i v) j = nth_error l j.
Proof. intros. rewrite nth_error_upd. now rewrite (proj2 (Nat.eqb_neq _ _) H). Qed.

Lemma nth_error_ex {A} (l : list A) i : i < length l -> exists x, nth_error l i = Some x.
Proof. intros H. destruct (nth_error l i) eqn:E; eauto. apply nth_error_None in E. lia. Qed.

Lemma nth_error_lt {A} (l : list A) i x : nth_error l i = Some x -> i < length l.
Proof. intros H. apply nth_error_Some. now rewrite H. Qed.

Lemma ofold_app {A B} (f : A -> B -> option A) l1 l2 a :
  ofold f (l1 ++ l2) a = obind (ofold f l1 a) (ofold f l2).
Proof. revert a. induction l1; cbn; intros; auto. destruct (f a0 a); auto. Qed.

Lemma ofold_inv {A B} (f : A -> B -> option A) (P : nat -> A -> Prop) l : forall a n,
  P n a -> (forall i b a, nth_error l i = Some b -> P (n + i) a -> exists a', f a b = Some a' /\ P (n + S i) a') ->
  exists a', ofold f l a = Some a' /\ P (n + length l) a'.
Proof.
  induction l; intros s n H0 HS; cbn.
  - exists s. now rewrite Nat.add_0_r.
  - destruct (HS 0 a s eq_refl) as [a' [E P1]]; [now rewrite Nat.add_0_r|]. rewrite E.
    destruct (IHl a' (S n)) as [a'' [E' P']].
    + now replace (S n) with (n + 1) by lia.
    + intros i b x Hi Hx. destruct (HS (S i) b x Hi) as [x' [Ex Px]].
      * now replace (n + S i) with (S n + i) by lia.
      * exists x'. split; auto. now replace (S n + S i) with (n + S (S i)) by lia.
    + exists a''. split; auto. now replace (n + S (length l)) with (S n + length l) by lia.
Qed.

Lemma omap_spec {A B} (f : A -> option B) l r :
  omap f l = Some r <-> length r = length l /\ forall i a, nth_error l i = Some a -> nth_error r i = f a.
Proof.
  revert r. induction l; intros r; cbn.
  - split.
    + intros H. inversion H; subst. split; auto. intros [|i]; discriminate.
    + intros [H _]. destruct r; try discriminate. reflexivity.
  - split.
    + destruct (f a) eqn:Ea; try discriminate. destruct (omap f l) as [r'|] eqn:Er; try discriminate.
      intros H. inversion H; subst. destruct (proj1 (IHl r') eq_refl) as [HL HN].
      split; [cbn; lia|]. intros [|i] x; cbn; intros Hx; [inversion Hx; subst; auto|auto].
    + intros [HL HN]. destruct r as [|b r]; try discriminate.
      pose proof (HN 0 a eq_refl) as H0. cbn in H0. rewrite <- H0.
      rewrite (proj2 (IHl r)); auto. split; [cbn in HL; lia|]. intros i x Hx. apply (HN (S i) x Hx).
Qed.

Lemma nth_error_ext {A} (l1 l2 : list A) :
  (forall i, nth_error l1 i = nth_error l2 i) -> l1 = l2.
Proof.
  revert l2. induction l1; intros [|b l2] H; auto.
  - specialize (H 0). discriminate.
  - specialize (H 0). discriminate.
  - f_equal. specialize (H 0). cbn in H. congruence. apply IHl1. intros i. apply (H (S i)).
Qed.

Lemma nth_error_seq s n i : nth_error (seq s n) i = if i <? n then Some (s + i) else None.
Proof.
  revert s i. induction n; intros s i.
  - destruct i; reflexivity.
  - destruct i as [|i]; [cbn; now rewrite Nat.add_0_r|].
    change (nth_error (seq (S s) n) i = if i <? n then Some (s + S i) else None).
    rewrite IHn, Nat.add_succ_r. reflexivity.
Qed.

(** An in-place loop over disjoint pairs of positions. *)
Lemma pairs_fold {A} (f : nat -> nat -> A -> A -> option (A * A)) ps : forall l,
  NoDup ps ->
  (forall p, In p ps -> fst p < length l /\ snd p < length l /\ fst p <> snd p) ->
  (forall p q, In p ps -> In q ps -> p <> q ->
     fst p <> fst q /\ fst p <> snd q /\ snd p <> fst q /\ snd p <> snd q) ->
  (forall p x y, In p ps -> nth_error l (fst p) = Some x -> nth_error l (snd p) = Some y ->
     exists r, f (fst p) (snd p) x y = Some r) ->
  exists l', ofold (pair_step f) ps l = Some l' /\ length l' = length l /\
    (forall p x y, In p ps -> nth_error l (fst p) = Some x -> nth_error l (snd p) = Some y ->
       exists x' y', f (fst p) (snd p) x y = Some (x', y') /\
         nth_error l' (fst p) = Some x' /\ nth_error l' (snd p) = Some y') /\
    (forall m, (forall p, In p ps -> m <> fst p /\ m <> snd p) -> nth_error l' m = nth_error l m).
Proof.
  induction ps as [|p ps IH]; intros l ND HB HD HF.
  { exists l. cbn. repeat split; auto; intros; contradiction. }
  inversion ND as [|? ? NI ND']; subst.
  destruct (HB p (or_introl eq_refl)) as [B1 [B2 B3]].
  destruct (nth_error_ex l _ B1) as [x Ex]. destruct (nth_error_ex l _ B2) as [y Ey].
  destruct (HF p x y (or_introl eq_refl) Ex Ey) as [[x' y'] Ef].
  assert (NE : forall q, In q ps -> p <> q) by (intros q Hq ->; auto).
  destruct (IH (upd (upd l (fst p) x') (snd p) y')) as [l' [E [HL [HP HO]]]]; auto.
  - intros q Hq. rewrite !upd_length. apply HB. now right.
  - intros q r Hq Hr. apply HD; now right.
  - intros q u v Hq Hu Hv. destruct (HD p q) as [D1 [D2 [D3 D4]]]; auto; [now left|now right|].
    rewrite !nth_error_upd_ne in Hu by auto. rewrite !nth_error_upd_ne in Hv by auto.
    apply HF; auto. now right.
  - rewrite !upd_length in HL. exists l'. cbn [ofold]. unfold pair_step at 1. rewrite Ex, Ey, Ef.
    split; auto. split; auto. split.
    + intros q u v [<-|Hq] Hu Hv.
      * rewrite Ex in Hu. rewrite Ey in Hv. inversion Hu; inversion Hv; subst. exists x', y'. split; auto.
        rewrite !HO.
        -- rewrite nth_error_upd_ne, nth_error_upd_eq by auto.
           rewrite nth_error_upd_eq by (rewrite upd_length; auto). auto.
        -- intros q Hq. destruct (HD p q) as [D1 [D2 [D3 D4]]]; auto; [now left|now right].
        -- intros q Hq. destruct (HD p q) as [D1 [D2 [D3 D4]]]; auto; [now left|now right].
      * destruct (HD p q) as [D1 [D2 [D3 D4]]]; auto; [now left|now right|].
        apply HP; auto; rewrite !nth_error_upd_ne by auto; auto.
    + intros m Hm. rewrite HO.
      * destruct (Hm p (or_introl eq_refl)). now rewrite !nth_error_upd_ne by auto.
      * intros q Hq. apply Hm. now right.
Qed.

Lemma NoDup_app_disj {A} (m r : list A) :
  NoDup m -> NoDup r -> (forall p, In p m -> ~ In p r) -> NoDup (m ++ r).
Proof.
  induction m as [|p m IHm]; intros Hm Hr HD; cbn; auto. inversion Hm; subst. constructor.
  - rewrite in_app_iff. intros [|]; auto. apply (HD p); auto. now left.
  - apply IHm; auto. intros q Hq. apply HD. now right.
Qed.

Lemma NoDup_list_prod {A B} (l1 : list A) (l2 : list B) : NoDup l1 -> NoDup l2 -> NoDup (list_prod l1 l2).
Proof.
  intros H1 H2. induction H1 as [|a l1 Ha H1 IH]; cbn; [constructor|].
  apply NoDup_app_disj; auto.
  - apply FinFun.Injective_map_NoDup; auto. intros x y E. now inversion E.
  - intros [u v] Hp Hq. apply in_map_iff in Hp. destruct Hp as [z [Ez _]]. inversion Ez; subst.
    apply in_prod_iff in Hq. tauto.
Qed.

Lemma NoDup_map_in {A B} (f : A -> B) l : NoDup l ->
  (forall x y, In x l -> In y l -> f x = f y -> x = y) -> NoDup (map f l).
Proof.
  induction 1 as [|a l Ha H IH]; intros HI; cbn; constructor.
  - intros Hi. apply in_map_iff in Hi. destruct Hi as [b [Eb Hb]].
    apply Ha. rewrite <- (HI b a); auto; [now right|now left].
  - apply IH. intros x y Hx Hy. apply HI; now right.
Qed.

Lemma lor_shl j s k : k < 2 ^ s -> Nat.lor (Nat.shiftl j s) k = j * 2 ^ s + k.
Proof.
  intros Hk. rewrite Nat.shiftl_mul_pow2.
  assert (L : Nat.land (j * 2 ^ s) k = 0).
  { apply Nat.bits_inj. intros i. rewrite Nat.land_spec, Nat.bits_0.
    destruct (Nat.lt_ge_cases i s).
    - rewrite Nat.mul_pow2_bits_low by auto. reflexivity.
    - replace (Nat.testbit k i) with false; [apply andb_false_r|].
      rewrite <- (Nat.mod_small k (2 ^ s)) by auto. symmetry. apply Nat.mod_pow2_bits_high. auto. }
  rewrite Nat.add_nocarry_lxor by auto. now rewrite Nat.lxor_lor.
Qed.

Lemma skipn_add {A} a b (l : list A) : skipn a (skipn b l) = skipn (b + a) l.
Proof. revert l. induction b; intros l; cbn [skipn Nat.add]; auto. destruct l; auto. apply skipn_nil. Qed.

Lemma nth_skipn' {A} m (l : list A) r d : nth r (skipn m l) d = nth (m + r) l d.
Proof. revert l. induction m; intros l; cbn [skipn Nat.add]; auto. destruct l; [now destruct r|apply IHm]. Qed.

Lemma nth_error_skipn {A} m (l : list A) r : nth_error (skipn m l) r = nth_error l (m + r).
Proof. revert l. induction m; intros l; cbn [skipn Nat.add]; auto. destruct l; [now destruct r|apply IHm]. Qed.

Lemma nth_error_firstn {A} m (l : list A) r : nth_error (firstn m l) r = if r <? m then nth_error l r else None.
Proof.
  revert l r. induction m; intros l r; cbn [firstn].
  - destruct r; reflexivity.
  - destruct l; [replace (nth_error [] r) with (@None A) by (now destruct r); now destruct (r <? S m)|]. destruct r; [reflexivity|].
    cbn [nth_error]. rewrite IHm. reflexivity.
Qed.
