(** Products of random linear factors tell multisets of tuples apart. *)
Require Import Coq.ZArith.ZArith Coq.Arith.Arith Coq.Lists.List Coq.Bool.Bool Lia.
From Verif Require Import Base.Fld Base.Lists Base.Sums Base.Poly Protocol.Proto Protocol.Soundness Cs.ChannelModel Cs.ChannelProps.
Import ListNotations.

Section Alg.
  Variable F : field.
  Local Open Scope fld_scope.
  Add Ring Fring : (f_ring F).
  Notation event := (event F).

  (** The factor of an event for the mixing challenge [s] and the permutation challenge [r]. *)
  Definition factor (s r : F) (e : event) : F := fpow (r + peval (ev_values F e) s) (N.to_nat (ev_mult F e)).
  Definition on (d : direction) (c : nat) (e : event) : bool := (ev_channel F e =? c)%nat && dir_eqb (ev_dir F e) d.
  Definition side (d : direction) (c : nat) (s r : F) (es : list event) : F := fprod (map (factor s r) (filter (on d c) es)).
  (** how many tuples go over channel [c] in direction [d], with multiplicities *)
  Definition weight (d : direction) (c : nat) (es : list event) : nat := list_sum (map (fun e => N.to_nat (ev_mult F e)) (filter (on d c) es)).

  Lemma side_app d c s r a b : side d c s r (a ++ b) = side d c s r a * side d c s r b.
  Proof. unfold side. rewrite filter_app, map_app. induction (map (factor s r) (filter (on d c) a)) as [|x l IH]; cbn [app fprod]; [ring|]. rewrite IH. ring. Qed.
  Lemma side_cons d c s r e es : side d c s r (e :: es) = (if on d c e then factor s r e else 1) * side d c s r es.
  Proof. unfold side. cbn [filter]. destruct (on d c e); cbn [map fprod]; ring. Qed.
  Lemma weight_cons d c e es : weight d c (e :: es) = ((if on d c e then N.to_nat (ev_mult F e) else 0) + weight d c es)%nat.
  Proof. unfold weight. cbn [filter]. now destruct (on d c e). Qed.

  Lemma fpow_nonzero (x : F) n : x <> 0 -> fpow x n <> 0.
  Proof.
    intros H. induction n as [|n IH]; cbn [fpow]; [apply (f_10 F)|]. intros E. apply IH. apply (f_equal (fun y => finv x * y)) in E.
    transitivity (finv x * x * fpow x n); [rewrite (f_inv_l F) by auto; ring|]. transitivity (finv x * (x * fpow x n)); [ring|]. rewrite E. ring.
  Qed.
  Lemma mul_nonzero (x y : F) : x <> 0 -> y <> 0 -> x * y <> 0.
  Proof.
    intros HX HY E. apply HY. transitivity (finv x * x * y); [rewrite (f_inv_l F) by auto; ring|]. transitivity (finv x * (x * y)); [ring|]. rewrite E. ring.
  Qed.
  Lemma mul_cancel (x y z : F) : x <> 0 -> x * y = x * z -> y = z.
  Proof.
    intros H E. transitivity (finv x * x * y); [rewrite (f_inv_l F) by auto; ring|]. transitivity (finv x * (x * y)); [ring|]. rewrite E.
    transitivity (finv x * x * z); [ring|]. rewrite (f_inv_l F) by auto. ring.
  Qed.

  Lemma is_poly_pow (b : F) m : is_poly (S m) (fun r : F => fpow (r + b) m).
  Proof.
    induction m as [|m IH]; cbn [fpow]; [apply is_poly_const|]. replace (S (S m)) with (S (1 + m)) by lia.
    apply is_poly_mul; [|exact IH]. apply is_poly_ext with (g := fun x => b + 1 * x); [intros; ring|]. apply is_poly_affine.
  Qed.

  (** The factors of a side, without those of the tuples with mixed value [a]. *)
  Section Split.
    Variables (d : direction) (c : nat) (s : F) (x : list F).
    Let a := peval x s.
    Fixpoint rest (es : list event) (r : F) : F :=
      match es with
      | [] => 1
      | e :: es => if on d c e && (if key_dec F (ev_values F e) x then false else true) then factor s r e * rest es r else rest es r
      end.
    Fixpoint hit (es : list event) : nat :=
      match es with [] => 0 | e :: es => (if on d c e && (if key_dec F (ev_values F e) x then true else false) then N.to_nat (ev_mult F e) else 0) + hit es end.
    Lemma hit_sent es : Z.of_nat (hit es) = sent F d c x es.
    Proof.
      induction es as [|e es IH]; cbn [hit sent]; [reflexivity|]. rewrite Nat2Z.inj_add, IH. f_equal. unfold on, hits.
      destruct (_ =? c)%nat, (dir_eqb _ d), (key_dec F (ev_values F e) x); cbn [andb]; try reflexivity. apply N_nat_Z.
    Qed.
    Lemma side_split es r : side d c s r es = fpow (r + a) (hit es) * rest es r.
    Proof.
      induction es as [|e es IH]; [cbn; ring|]. rewrite side_cons, IH. cbn [hit rest]. destruct (on d c e) eqn:EO; cbn [andb].
      - destruct (key_dec F (ev_values F e) x) as [E|E].
        + rewrite fpow_add. unfold factor. rewrite E. fold a. ring.
        + cbn [Nat.add]. ring.
      - cbn [Nat.add]. ring.
    Qed.
    Lemma rest_poly es : is_poly (S (weight d c es - hit es)) (rest es) /\ (hit es <= weight d c es)%nat.
    Proof.
      induction es as [|e es [IH LE]]; [split; [apply is_poly_const|cbn; lia]|]. rewrite weight_cons. cbn [hit rest]. destruct (on d c e) eqn:EO; cbn [andb].
      - destruct (key_dec F (ev_values F e) x) as [E|E].
        + split; [eapply is_poly_le; [|exact IH]; lia|lia].
        + split; [|lia]. eapply is_poly_le; [|apply (is_poly_mul F (N.to_nat (ev_mult F e)) _ _ _ (is_poly_pow _ _) IH)]. lia.
      - split; [eapply is_poly_le; [|exact IH]; lia|lia].
    Qed.
    Lemma rest_root es : (forall e, In e es -> ev_channel F e = c -> ev_values F e <> x -> peval (ev_values F e) s <> a) -> rest es (- a) <> 0.
    Proof.
      induction es as [|e es IH]; intros H; cbn [rest]; [apply (f_10 F)|].
      assert (H' : rest es (- a) <> 0) by (apply IH; intros; apply H; auto; now right).
      destruct (on d c e) eqn:EO; cbn [andb]; [|exact H']. destruct (key_dec F (ev_values F e) x) as [E|E]; [exact H'|].
      apply mul_nonzero; [|exact H']. unfold factor. apply fpow_nonzero. intros Z. unfold on in EO. apply andb_prop in EO. destruct EO as [EC _]. apply Nat.eqb_eq in EC.
      apply (H e (or_introl eq_refl) EC E). transitivity (a + (- a + peval (ev_values F e) s)); [ring|]. rewrite Z. ring.
    Qed.
  End Split.

  Lemma pow_sub (y : F) p q : (p <= q)%nat -> fpow y q = fpow y p * fpow y (q - p).
  Proof. intros H. rewrite <- fpow_add. f_equal. lia. Qed.

  Lemma unequal_powers (a : F) (f g : F -> F) p q df dg M : (p < q)%nat -> is_poly (S df) f -> is_poly (S dg) g ->
    f (- a) <> 0 -> (p + df <= M)%nat -> (q + dg <= M)%nat ->
    forall l, NoDup l -> (forall r, In r l -> fpow (r + a) p * f r = fpow (r + a) q * g r) -> (length l <= M)%nat.
  Proof.
    intros PQ PF PG NZ MF MG l ND HL.
    assert (PD : is_poly (S (M - p)) (fun r => f r + (- (1)) * (fpow (r + a) (q - p) * g r))).
    { apply is_poly_add; [eapply is_poly_le; [|exact PF]; lia|]. apply is_poly_scale.
      eapply is_poly_le; [|apply (is_poly_mul F (q - p) dg _ _ (is_poly_pow a (q - p)) PG)]. lia. }
    destruct PD as [cs [LC EC]].
    assert (NZc : exists i, nth i cs 0 <> 0).
    { assert (D : Forall (fun y => y = 0) cs \/ exists i, nth i cs 0 <> 0).
      { clear. induction cs as [|y cs IH]; [left; constructor|]. destruct (feq_dec F y 0) as [->|N]; [|right; now exists 0%nat].
        destruct IH as [IH|[i Hi]]; [left; now constructor|right; now exists (S i)]. }
      destruct D as [D|D]; [|exact D]. exfalso. apply NZ. specialize (EC (- a)). rewrite (peval_zero F cs _ D) in EC.
      replace (q - p)%nat with (S (q - p - 1)) in EC by lia. cbn [fpow] in EC. transitivity (f (- a) + - (1) * ((- a + a) * fpow (- a + a) (q - p - 1) * g (- a))); [ring|exact EC]. }
    pose proof (roots_at_most F cs (M - p) LC NZc) as RM.
    assert (RT : forall r, In r l -> r <> - a -> feqb (peval cs r) 0 = true).
    { intros r Hr NE. apply (f_eqb F). rewrite <- EC. specialize (HL r Hr). rewrite (pow_sub _ p q) in HL by lia.
      assert (E : f r = fpow (r + a) (q - p) * g r).
      { apply (mul_cancel (fpow (r + a) p)); [|rewrite HL; ring]. apply fpow_nonzero. intros Z. apply NE. transitivity (r + a - a); [ring|]. rewrite Z. ring. }
      rewrite E. ring. }
    destruct p as [|p].
    - rewrite Nat.sub_0_r in RM. apply RM; [exact ND|]. intros r Hr. destruct (feq_dec F r (- a)) as [->|NE]; [|now apply RT].
      exfalso. apply NZ. specialize (HL (- a) Hr). cbn [fpow] in HL. transitivity (1 * f (- a)); [ring|]. rewrite HL.
      destruct q as [|q]; [lia|]. cbn [fpow]. ring.
    - assert (LR : (length (remove (feq_dec F) (- a) l) <= M - S p)%nat).
      { apply RM.
        - clear - ND. induction ND as [|y l NI ND IH]; [constructor|]. cbn [remove]. destruct (feq_dec F (- a) y); [exact IH|]. constructor; [|exact IH].
          intros I. apply in_remove in I. tauto.
        - intros r Hr. apply in_remove in Hr. destruct Hr. now apply RT. }
      assert (LL : (length l <= 1 + length (remove (feq_dec F) (- a) l))%nat).
      { clear - ND. induction ND as [|y l NI ND IH]; [cbn; lia|]. cbn [remove length]. destruct (feq_dec F (- a) y) as [<-|]; cbn [length]; [|lia].
        rewrite notin_remove by auto. lia. }
      lia.
  Qed.

  (** For a mixing challenge that keeps [x] apart from the other tuples of the channel, few permutation challenges make the
      products of an unbalanced channel equal. *)
  Lemma unbalanced_side c s x es : sent F Push c x es <> sent F Pull c x es ->
    (forall e, In e es -> ev_channel F e = c -> ev_values F e <> x -> peval (ev_values F e) s <> peval x s) ->
    at_most (Nat.max (weight Push c es) (weight Pull c es)) (fun r => feqb (side Pull c s r es) (side Push c s r es)).
  Proof.
    intros NE AP l ND HL. rewrite <- !hit_sent in NE.
    assert (HL' : forall r, In r l -> side Pull c s r es = side Push c s r es) by (intros r Hr; apply (f_eqb F); now apply HL).
    destruct (rest_poly Push c s x es) as [P1 L1], (rest_poly Pull c s x es) as [P2 L2].
    assert (D : (hit Push c x es < hit Pull c x es \/ hit Pull c x es < hit Push c x es)%nat) by lia. destruct D as [D|D].
    - apply (unequal_powers (peval x s) (rest Push c s x es) (rest Pull c s x es) _ _ _ _ _ D P1 P2); try lia; auto; [now apply rest_root|].
      intros r Hr. rewrite <- !side_split. symmetry. now apply HL'.
    - apply (unequal_powers (peval x s) (rest Pull c s x es) (rest Push c s x es) _ _ _ _ _ D P2 P1); try lia; auto; [now apply rest_root|].
      intros r Hr. rewrite <- !side_split. now apply HL'.
  Qed.

  (** Few mixing challenges fail to keep [x] apart from the other tuples of the channel, when all have one width. *)
  Definition collides (c : nat) (x : list F) (es : list event) (s : F) : bool :=
    existsb (fun e => (ev_channel F e =? c)%nat && (if key_dec F (ev_values F e) x then false else true) && feqb (peval (ev_values F e) s) (peval x s)) es.
  Lemma collides_false c x es s : collides c x es s = false ->
    forall e, In e es -> ev_channel F e = c -> ev_values F e <> x -> peval (ev_values F e) s <> peval x s.
  Proof.
    unfold collides. intros H e He EC NX E. assert (T : existsb (fun e => (ev_channel F e =? c)%nat && (if key_dec F (ev_values F e) x then false else true) && feqb (peval (ev_values F e) s) (peval x s)) es = true); [|congruence].
    apply existsb_exists. exists e. split; [exact He|]. apply andb_true_intro. split; [apply andb_true_intro; split|].
    - now apply Nat.eqb_eq.
    - now destruct (key_dec F (ev_values F e) x).
    - rewrite E. apply feqb_refl.
  Qed.
  Lemma at_most_or d1 d2 (b1 b2 : F -> bool) : at_most d1 b1 -> at_most d2 b2 -> at_most (d1 + d2) (fun x => b1 x || b2 x).
  Proof.
    intros H1 H2 l ND HL.
    assert (E : length l = (length (filter b1 l) + length (filter (fun x => negb (b1 x)) l))%nat).
    { clear. induction l as [|y l IH]; [reflexivity|]. cbn [filter length]. destruct (b1 y); cbn [negb length]; lia. }
    rewrite E. apply Nat.add_le_mono.
    - apply H1; [now apply NoDup_filter|]. intros y Hy. now apply filter_In in Hy.
    - apply H2; [now apply NoDup_filter|]. intros y Hy. apply filter_In in Hy. destruct Hy as [Hy N]. specialize (HL y Hy). destruct (b1 y); [discriminate|exact HL].
  Qed.
  Lemma at_most_impl d (b b' : F -> bool) : at_most d b -> (forall x, b' x = true -> b x = true) -> at_most d b'.
  Proof. intros H I l ND HL. apply H; auto. Qed.

  Definition on_channel (c : nat) (es : list event) : list event := filter (fun e => ev_channel F e =? c)%nat es.

  Lemma collides_few c x w es : length x = w -> (forall e, In e es -> ev_channel F e = c -> length (ev_values F e) = w) ->
    at_most (length (on_channel c es) * (w - 1)) (collides c x es).
  Proof.
    intros LX. induction es as [|e es IH]; intros H; [apply at_most_none|]. unfold collides, on_channel. cbn [existsb filter].
    assert (H' : at_most (length (on_channel c es) * (w - 1)) (collides c x es)) by (apply IH; intros; apply H; auto; now right).
    destruct (Nat.eqb_spec (ev_channel F e) c) as [EC|NC]; cbn [andb orb length]; [|exact H']. cbn [Nat.mul]. apply at_most_or; [|exact H'].
    destruct (key_dec F (ev_values F e) x) as [EX|NX]; cbn [andb]; [apply at_most_none|].
    pose proof (H e (or_introl eq_refl) EC) as LE. set (y := ev_values F e) in *.
    assert (LD : length (padd y (pscale (- (1)) x)) = w) by (rewrite padd_length; unfold pscale; rewrite map_length; lia).
    assert (NZ : exists i, nth i (padd y (pscale (- (1)) x)) 0 <> 0).
    { assert (D : exists i, nth i y 0 <> nth i x 0).
      { clear - NX LE LX. assert (LL : length y = length x) by congruence. clear LE LX. revert x NX LL. induction y as [|u y IHy]; intros [|v x] NX LL; cbn in LL; try lia; [congruence|].
        destruct (feq_dec F u v) as [->|N]; [|now exists 0%nat]. destruct (IHy x) as [i Hi]; [congruence|lia|now exists (S i)]. }
      destruct D as [i Hi]. exists i. rewrite padd_nth. intros Z. apply Hi. apply fsub_eq0. refine (eq_trans _ Z). unfold pscale.
      destruct (Nat.lt_ge_cases i (length x)) as [Lt|Ge]; [rewrite (nth_map_lt _ _ _ _ 0) by auto; ring|]. rewrite (nth_overflow x) by auto.
      rewrite (nth_overflow (map _ x)) by (rewrite map_length; auto). ring. }
    eapply at_most_impl; [apply (roots_at_most F (padd y (pscale (- (1)) x)) (w - 1)); [rewrite LD; lia|exact NZ]|].
    intros s Hs. apply (f_eqb F) in Hs. apply (f_eqb F). rewrite peval_padd, peval_pscale, Hs. ring.
  Qed.

  (** Equal multisets have equal products. *)
  Lemma balanced_side c s r : forall es, (forall x, sent F Push c x es = sent F Pull c x es) -> side Pull c s r es = side Push c s r es.
  Proof.
    assert (G : forall n es, (length es <= n)%nat -> (forall x, sent F Push c x es = sent F Pull c x es) -> side Pull c s r es = side Push c s r es).
    { induction n as [|n IH]; intros es LE H; [destruct es; [reflexivity|cbn in LE; lia]|]. destruct es as [|e es]; [reflexivity|].
      set (x := ev_values F e). set (others := filter (fun e => if key_dec F (ev_values F e) x then false else true) (e :: es)).
      assert (SP : forall d, side d c s r (e :: es) = fpow (r + peval x s) (hit d c x (e :: es)) * side d c s r others).
      { intros d. rewrite (side_split d c s x). f_equal. unfold others. generalize (e :: es). clear. intros l. induction l as [|e0 l IH]; [reflexivity|]. cbn [rest filter].
        destruct (key_dec F (ev_values F e0) x); [now rewrite andb_false_r|]. rewrite side_cons, andb_true_r. rewrite <- IH. destruct (on d c e0); ring. }
      rewrite !SP. f_equal; [|apply IH].
      - f_equal. apply Nat2Z.inj. rewrite !hit_sent. symmetry. apply H.
      - unfold others. cbn [filter]. destruct (key_dec F (ev_values F e) x) as [_|N]; [|exfalso; now apply N]. cbn [length] in LE.
        assert (FL : forall (f : event -> bool) l, (length (filter f l) <= length l)%nat) by (clear; intros f; induction l as [|y l IHl]; [auto|cbn [filter]; destruct (f y); cbn [length]; lia]).
        specialize (FL (fun e => if key_dec F (ev_values F e) x then false else true) es). lia.
      - intros y. assert (SO : forall d es, sent F d c y (filter (fun e => if key_dec F (ev_values F e) x then false else true) es) = if key_dec F y x then 0%Z else sent F d c y es).
        { clear. intros d l. induction l as [|e0 l IHl]; cbn [filter sent]; [now destruct (key_dec F y x)|].
          destruct (key_dec F (ev_values F e0) x) as [E|E]; [rewrite IHl|cbn [sent]; rewrite IHl]; destruct (key_dec F y x) as [Ey|Ey]; auto.
          - unfold hits. destruct (key_dec F (ev_values F e0) y) as [E'|]; [congruence|]. now rewrite !andb_false_r.
          - unfold hits. destruct (key_dec F (ev_values F e0) y) as [E'|]; [congruence|]. now rewrite !andb_false_r. }
        unfold others. rewrite !SO. destruct (key_dec F y x); [reflexivity|apply H]. }
    intros es. now apply (G (length es)).
  Qed.
End Alg.
