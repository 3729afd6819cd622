(** Lemmas for the sumcheck theorems. *)
Require Import Coq.setoid_ring.Ring Coq.Arith.Arith Coq.Lists.List Coq.Bool.Bool Coq.Sorting.Sorted Lia.
From Verif Require Import Base.Fld Base.Lists Base.Sums Base.Poly Math.MleModel Math.MleSpec Math.UnivariateModel
  Math.UnivariateProps Protocol.Proto Protocol.Soundness Sumcheck.SumcheckModel Sumcheck.SumcheckSpec.
Import ListNotations.

(* ---------------------------------------------------------------- *)
(** Sortedness. *)
Lemma sorted_asc l : is_sorted_ascending l = true -> StronglySorted le l.
Proof.
  intros H. apply Sorted_StronglySorted; [intros x y z; apply Nat.le_trans|].
  induction l as [|a l IH]; [constructor|]. cbn [is_sorted_ascending] in H.
  destruct l as [|b l]; [repeat constructor|]. apply andb_true_iff in H as [H1 H2].
  constructor; [now apply IH|]. constructor. destruct (Nat.ltb_spec b a); [discriminate|assumption].
Qed.

Lemma strongly_sorted_app {A} (R : A -> A -> Prop) l m : StronglySorted R (l ++ m) ->
  StronglySorted R l /\ StronglySorted R m /\ forall x y, In x l -> In y m -> R x y.
Proof.
  induction l as [|a l IH]; cbn [app]; intros H.
  - repeat split; auto. constructor. intros x y [].
  - inversion H as [|? ? H1 H2]; subst. destruct (IH H1) as [A1 [A2 A3]]. rewrite Forall_app in H2. destruct H2 as [H2 H3].
    repeat split; auto; [now constructor|]. intros x y [<-|Hx] Hy; auto. rewrite Forall_forall in H3. auto.
Qed.

Lemma sorted_desc l : is_sorted_ascending (rev l) = true -> StronglySorted ge l.
Proof.
  intros H. apply sorted_asc in H. induction l as [|a l IH]; [constructor|].
  cbn [rev] in H. apply strongly_sorted_app in H as [H1 [_ H3]]. constructor; auto.
  apply Forall_forall. intros x Hx. apply (H3 x a); [now apply -> in_rev|now left].
Qed.

Lemma asc_sorted l : StronglySorted le l -> is_sorted_ascending l = true.
Proof.
  induction 1 as [|a l S IH H]; [reflexivity|]. destruct l as [|b l]; [reflexivity|].
  change (negb (b <? a)%nat && is_sorted_ascending (b :: l) = true). rewrite IH, andb_true_r.
  inversion H. destruct (Nat.ltb_spec b a); [lia|reflexivity].
Qed.

Lemma strongly_sorted_snoc {A} (R : A -> A -> Prop) l x : StronglySorted R l -> Forall (fun y => R y x) l ->
  StronglySorted R (l ++ [x]).
Proof.
  induction 1 as [|a l S IH H]; intros HF; cbn [app]; [repeat constructor|]. inversion HF; subst. constructor; auto.
  apply Forall_app. split; auto.
Qed.

Lemma desc_sorted l : StronglySorted ge l -> is_sorted_ascending (rev l) = true.
Proof.
  intros H. apply asc_sorted. induction H as [|a l S IH H]; cbn [rev]; [constructor|].
  apply strongly_sorted_snoc; auto. rewrite Forall_forall in *. intros y Hy. apply in_rev in Hy. now apply H in Hy.
Qed.

Lemma max_list_ge (l : list nat) x : In x l -> (x <= fold_right Nat.max 0 l)%nat.
Proof. induction l as [|a l IH]; intros []; cbn; subst; try lia. specialize (IH H). lia. Qed.

Lemma desc_max l : StronglySorted ge l -> fold_right Nat.max 0%nat l = match l with [] => 0%nat | a :: _ => a end.
Proof.
  induction 1 as [|a l S IH H]; [reflexivity|]. cbn [fold_right]. rewrite IH.
  destruct l as [|b l]; [lia|]. inversion H. lia.
Qed.

Lemma skipn_snoc {A} k (l : list A) x : (k <= length l)%nat -> skipn k (l ++ [x]) = skipn k l ++ [x].
Proof. intros H. rewrite skipn_app. replace (k - length l)%nat with 0%nat by lia. reflexivity. Qed.

Section Proofs.
  Variable F : field.
  Local Open Scope fld_scope.
  Add Ring Fring : (f_ring F).

  (* ---------------------------------------------------------------- *)
  (** Sums over the hypercube, one variable at a time. *)
  Fixpoint bsum (n : nat) (g : list F -> F) : F :=
    match n with
    | O => g []
    | S n' => bsum n' (fun l => g (0 :: l)) + bsum n' (fun l => g (1 :: l))
    end.

  Lemma bsum_ext n (g h : list F -> F) : (forall l, length l = n -> g l = h l) -> bsum n g = bsum n h.
  Proof.
    revert g h. induction n as [|n IH]; intros g h H; cbn [bsum]; [now apply H|].
    f_equal; apply IH; intros l Hl; apply H; cbn; lia.
  Qed.

  Lemma bsum_add n g h : bsum n (fun l => g l + h l) = bsum n g + bsum n h.
  Proof. revert g h. induction n as [|n IH]; intros g h; cbn [bsum]; [reflexivity|]. rewrite (IH (fun l => g (0 :: l))), (IH (fun l => g (1 :: l))). ring. Qed.

  Lemma bsum_scale n k g : bsum n (fun l => k * g l) = k * bsum n g.
  Proof. revert g. induction n as [|n IH]; intros g; cbn [bsum]; [reflexivity|]. rewrite !IH. ring. Qed.

  Lemma bsum_zero n : bsum n (fun _ => 0) = 0.
  Proof. induction n as [|n IH]; cbn [bsum]; [reflexivity|]. rewrite !IH. ring. Qed.

  Lemma bsum_vertex n g : bsum n g = sumn (2 ^ n) (fun x => g (vertex n x)).
  Proof.
    revert g. induction n as [|n IH]; intros g; cbn [bsum].
    - cbn [Nat.pow]. rewrite sumn_1. reflexivity.
    - rewrite !IH, Nat.pow_succ_r', sumn_double, <- sumn_add. apply sumn_ext. intros i Hi.
      cbn [vertex]. rewrite odd_double0, div_double0, odd_double, div_double by lia. reflexivity.
  Qed.

  Lemma bsum_snoc n g : bsum (S n) g = bsum n (fun l => g (l ++ [0])) + bsum n (fun l => g (l ++ [1])).
  Proof.
    revert g. induction n as [|n IH]; intros g; [reflexivity|].
    change (bsum (S (S n)) g) with (bsum (S n) (fun l => g (0 :: l)) + bsum (S n) (fun l => g (1 :: l))).
    rewrite (IH (fun l => g (0 :: l))), (IH (fun l => g (1 :: l))). cbn [bsum]. cbn [app]. ring.
  Qed.

  Lemma bsum_rev n g : bsum n (fun l => g (rev l)) = bsum n g.
  Proof.
    revert g. induction n as [|n IH]; intros g; [reflexivity|]. rewrite bsum_snoc. cbn [bsum].
    f_equal; [rewrite <- (IH (fun l => g (0 :: l)))|rewrite <- (IH (fun l => g (1 :: l)))];
      apply bsum_ext; intros l _; now rewrite rev_app_distr.
  Qed.

  Lemma bsum_poly n d (g : F -> list F -> F) :
    (forall l, length l = n -> is_poly d (fun x => g x l)) -> is_poly d (fun x => bsum n (g x)).
  Proof.
    revert g. induction n as [|n IH]; intros g H; cbn [bsum]; [now apply H|].
    apply is_poly_add; apply (IH (fun x l => g x (_ :: l))); intros l Hl; apply H; cbn; lia.
  Qed.

  (* ---------------------------------------------------------------- *)
  (** Weighted sums are polynomials in the coefficient. *)
  Lemma weighted_peval (a : F) vs : batch_weighted_value a vs = a * peval vs a.
  Proof.
    unfold batch_weighted_value, inner_product_unchecked. f_equal.
    enough (G : forall k, fsum (map (fun p => fst p * snd p) (combine (powers_from k a (length vs)) vs)) = k * peval vs a)
      by (rewrite G; ring).
    induction vs as [|v vs IH]; intros k; cbn [length powers_from combine map fsum fst snd]; [rewrite peval_nil; ring|].
    rewrite IH, peval_cons. ring.
  Qed.

  Lemma peval_map_add {A} (f g : A -> F) l x : peval (map (fun i => f i + g i) l) x = peval (map f l) x + peval (map g l) x.
  Proof. induction l as [|a l IH]; cbn [map]; [rewrite peval_nil; ring|]. rewrite !peval_cons, IH. ring. Qed.
  Lemma peval_map_sub {A} (f g : A -> F) l x : peval (map (fun i => f i - g i) l) x = peval (map f l) x - peval (map g l) x.
  Proof. induction l as [|a l IH]; cbn [map]; [rewrite peval_nil; ring|]. rewrite !peval_cons, IH. ring. Qed.

  Lemma bsum_peval {A} n (f : A -> list F -> F) l a :
    bsum n (fun p => peval (map (fun i => f i p) l) a) = peval (map (fun i => bsum n (f i)) l) a.
  Proof.
    induction l as [|i l IH]; cbn [map].
    - rewrite peval_nil. apply bsum_zero.
    - rewrite peval_cons, <- IH, <- bsum_scale, <- bsum_add. apply bsum_ext. intros. now rewrite peval_cons.
  Qed.

  Lemma is_poly_peval_map {A} d (f : A -> F -> F) l a : (forall i, In i l -> is_poly d (f i)) ->
    is_poly d (fun x => peval (map (fun i => f i x) l) a).
  Proof.
    induction l as [|i l IH]; intros H; cbn [map].
    - apply is_poly_ext with (g := fun _ => 0); [intros; apply peval_nil|].
      apply is_poly_le with (n := 0%nat); [lia|]. apply is_poly_0.
    - apply is_poly_ext with (g := fun x => f i x + a * peval (map (fun i => f i x) l) a); [intros; apply peval_cons|].
      apply is_poly_add; [apply H; now left|]. apply is_poly_scale, IH. intros; apply H; now right.
  Qed.

  (** A list of coefficients is either zero or has a nonzero entry. *)
  Lemma nonzero_dec (c : list F) : Forall (fun a => a = 0) c \/ exists i, nth i c 0 <> 0.
  Proof.
    induction c as [|a c [H|[i H]]].
    - left. constructor.
    - destruct (feqb_spec F a 0) as [->|N]; [left; now constructor|]. right. exists 0%nat. exact N.
    - right. now exists (S i).
  Qed.

  Lemma peval_nonzero (c : list F) x : peval c x <> 0 -> exists i, nth i c 0 <> 0.
  Proof. intros H. destruct (nonzero_dec c) as [Z|]; auto. exfalso. apply H. now apply peval_zero. Qed.

  (* ---------------------------------------------------------------- *)
  (** Round polynomials. *)
  Lemma fold_left_fsum (l : list F) : forall a, fold_left fadd l a = a + fsum l.
  Proof. induction l as [|x l IH]; intros a; cbn [fold_left fsum]; [ring|]. rewrite IH. ring. Qed.

  Lemma peval_at_0 (c : list F) : peval c 0 = match c with [] => 0 | a :: _ => a end.
  Proof. destruct c as [|a c]; [apply peval_nil|]. rewrite peval_cons. ring. Qed.

  Lemma peval_at_1 (c : list F) : peval c 1 = fsum c.
  Proof. induction c as [|a c IH]; [apply peval_nil|]. rewrite peval_cons, IH. cbn [fsum]. ring. Qed.

  Lemma fsum_app (l m : list F) : fsum (l ++ m) = fsum l + fsum m.
  Proof. induction l as [|a l IH]; cbn [app fsum]; [ring|]. rewrite IH. ring. Qed.

  Lemma recover_sum coeffs (s : F) : coeffs <> [] ->
    peval (recover coeffs s) 0 + peval (recover coeffs s) 1 = s.
  Proof.
    intros H. destruct coeffs as [|a c]; [congruence|]. unfold recover. rewrite fold_left_fsum.
    rewrite peval_at_0, peval_at_1. cbn [app fsum]. rewrite fsum_app. cbn [fsum]. ring.
  Qed.

  Lemma recover_length coeffs (s : F) : length (recover coeffs s) = S (length coeffs).
  Proof. unfold recover. rewrite app_length. cbn. lia. Qed.

  (* ---------------------------------------------------------------- *)
  (** The batched composite of an instance at the point with round challenges [p]. *)
  Definition cval (ms : list (nat -> F)) (c : comp F) (q : list F) : F := val (c_eval c (map (fun m => mle m q) ms)).
  Definition W (o : order) (i : inst F) (a : F) (p : list F) : F :=
    batch_weighted_value a (map (fun cs => cval (snd i) (fst cs) (pt o p)) (cl_sums (fst i))).
  Definition TV (o : order) (i : inst F) (a : F) (p : list F) (k : nat) : F := bsum k (fun l => W o i a (p ++ l)).

  Lemma TV_step o i a p k : TV o i a p (S k) = TV o i a (p ++ [0]) k + TV o i a (p ++ [1]) k.
  Proof. unfold TV. cbn [bsum]. f_equal; apply bsum_ext; intros l _; now rewrite <- app_assoc. Qed.

  Lemma TV_0 o i a p : TV o i a p 0 = W o i a p.
  Proof. unfold TV. cbn [bsum]. now rewrite app_nil_r. Qed.

  Lemma mles_line (ms : list (nat -> F)) u v x :
    map (fun m => mle m (u ++ x :: v)) ms =
    aline (map (fun m => mle m (u ++ 0 :: v)) ms) (map (fun m => mle m (u ++ 1 :: v) - mle m (u ++ 0 :: v)) ms) x.
  Proof.
    unfold aline. induction ms as [|m ms IH]; cbn [map combine fst snd]; [reflexivity|]. rewrite IH. f_equal.
    rewrite (mle_affine F m u v x). ring.
  Qed.

  Lemma cval_poly o ms c p l : comp_ok c -> length ms = c_nv c ->
    is_poly (S (c_deg c)) (fun x => cval ms c (pt o (p ++ x :: l))).
  Proof.
    intros [_ [_ [H _]]] HL.
    assert (G : forall u v, is_poly (S (c_deg c)) (fun x => cval ms c (u ++ x :: v))).
    { intros u v. destruct (H (map (fun m => mle m (u ++ 0 :: v)) ms) (map (fun m => mle m (u ++ 1 :: v) - mle m (u ++ 0 :: v)) ms))
        as [co [L [E _]]]; [now rewrite map_length|now rewrite map_length|].
      exists co. split; [lia|]. intros x. unfold cval. rewrite mles_line, E. reflexivity. }
    destruct o; cbn [pt]; [apply G|].
    apply is_poly_ext with (g := fun x => cval ms c (rev l ++ x :: rev p)); [|apply G].
    intros x. rewrite rev_app_distr. cbn [rev]. now rewrite <- app_assoc.
  Qed.

  Lemma TV_poly o i a p k : inst_ok i -> is_poly (S (max_individual_degree (fst i))) (fun x => TV o i a (p ++ [x]) k).
  Proof.
    intros [HM HC]. unfold TV. apply (bsum_poly k _ (fun x l => W o i a ((p ++ [x]) ++ l))). intros l _.
    apply is_poly_ext with (g := fun x => a * peval (map (fun cs => cval (snd i) (fst cs) (pt o (p ++ x :: l))) (cl_sums (fst i))) a).
    { intros x. unfold W. rewrite weighted_peval. now rewrite <- app_assoc. }
    apply is_poly_scale. apply (is_poly_peval_map _ (fun cs x => cval (snd i) (fst cs) (pt o (p ++ x :: l)))).
    intros cs Hcs. destruct (HC cs Hcs) as [C N].
    apply is_poly_le with (n := S (c_deg (fst cs))).
    - apply le_n_S. unfold max_individual_degree. apply max_list_ge. apply (in_map (fun cs => c_deg (fst cs)) _ _ Hcs).
    - apply cval_poly; auto. now rewrite HM, N.
  Qed.

  Lemma cval_sum o ms c n : bsum n (fun p => cval ms c (pt o p)) = true_sum c n ms.
  Proof.
    transitivity (bsum n (cval ms c)).
    - destruct o; cbn [pt]; [reflexivity|]. apply (bsum_rev n (cval ms c)).
    - rewrite bsum_vertex. apply sumn_ext. intros x Hx. unfold cval. do 2 f_equal. apply map_ext.
      intros m. now apply mle_on_cube.
  Qed.

  Lemma TV_init o i a : TV o i a [] (cl_n (fst i)) =
    batch_weighted_value a (map (fun cs => true_sum (fst cs) (cl_n (fst i)) (snd i)) (cl_sums (fst i))).
  Proof.
    unfold TV, W. cbn [app]. rewrite weighted_peval.
    rewrite (bsum_ext _ _ (fun l => a * peval (map (fun cs => cval (snd i) (fst cs) (pt o l)) (cl_sums (fst i))) a))
      by (intros; apply weighted_peval).
    rewrite bsum_scale. f_equal.
    rewrite (bsum_peval _ (fun cs l => cval (snd i) (fst cs) (pt o l))). f_equal. apply map_ext.
    intros cs. apply cval_sum.
  Qed.

  Lemma TV_round o i a p x k : TV o i a (p ++ [x]) k = a * round_value o i a p x k.
  Proof.
    unfold TV, round_value. rewrite bsum_vertex, <- sumn_scale. apply sumn_ext. intros v _. unfold W.
    rewrite weighted_peval, <- app_assoc. reflexivity.
  Qed.

  Lemma claim_true_sum o i a : claim_true i -> claim_sum a (fst i) = TV o i a [] (cl_n (fst i)).
  Proof. intros H. rewrite TV_init. unfold claim_sum. f_equal. apply map_ext_in. exact H. Qed.

  (** The polynomial in the batching coefficient that vanishes if a false claim is batched away. *)
  Lemma batch_in o i (s t : F) : (s <> t \/ ~ claim_true i) ->
    exists b, at_most (length (cl_sums (fst i))) b /\
      forall a, b a = false -> s + claim_sum a (fst i) <> t + TV o i a [] (cl_n (fst i)).
  Proof.
    intros H.
    set (c := (s - t) :: map (fun cs => snd cs - true_sum (fst cs) (cl_n (fst i)) (snd i)) (cl_sums (fst i))).
    exists (fun a => feqb (peval c a) 0). split.
    - apply roots_at_most; [unfold c; cbn [length]; rewrite map_length; lia|].
      destruct (nonzero_dec c) as [Z|]; auto. exfalso. inversion Z as [|? ? Z1 Z2]; subst.
      apply fsub_eq0 in Z1. destruct H as [H|H]; [congruence|]. apply H. intros cs Hcs.
      rewrite Forall_map, Forall_forall in Z2. apply fsub_eq0. now apply Z2.
    - intros a Ha E. apply feqb_false in Ha. apply Ha. unfold c. rewrite peval_cons, peval_map_sub.
      rewrite TV_init in E. unfold claim_sum in E. rewrite !weighted_peval in E.
      transitivity ((s + a * peval (map snd (cl_sums (fst i))) a)
        - (t + a * peval (map (fun cs => true_sum (fst cs) (cl_n (fst i)) (snd i)) (cl_sums (fst i))) a)); [ring|].
      rewrite E. ring.
  Qed.

  (** One round: if the running sum is wrong, it stays wrong unless the challenge is one of few. *)
  Lemma round_in (g : F -> F) (s : F) d coeffs : is_poly (S d) g -> length coeffs = d -> (1 <= d)%nat ->
    s <> g 0 + g 1 ->
    exists b, at_most d b /\ forall x, b x = false -> interpolate_round_proof coeffs s x <> g x.
  Proof.
    intros [t [Lt Ht]] HL HD NE.
    set (c := padd (recover coeffs s) (pscale (- (1)) t)).
    assert (P : forall x, peval c x = peval (recover coeffs s) x - g x).
    { intros x. unfold c. rewrite peval_padd, peval_pscale, Ht. ring. }
    assert (R : peval (recover coeffs s) 0 + peval (recover coeffs s) 1 = s).
    { apply recover_sum. intros ->. cbn in HL. lia. }
    exists (fun x => feqb (peval c x) 0). split.
    - apply roots_at_most.
      + unfold c, pscale. rewrite padd_length, map_length, recover_length. lia.
      + destruct (nonzero_dec c) as [Z|]; auto. exfalso. apply NE.
        assert (E : forall x, peval (recover coeffs s) x = g x).
        { intros x. apply fsub_eq0. rewrite <- P. now apply peval_zero. }
        now rewrite <- R, !E.
    - intros x Hx E. apply feqb_false in Hx. apply Hx. rewrite P.
      unfold interpolate_round_proof in E. rewrite evaluate_univariate_correct in E. rewrite E. ring.
  Qed.

  (** Evaluating the composites at truthful evaluations. *)
  Lemma collect_ok {A B} (f : A -> res B) (g : A -> B) l : (forall a, In a l -> f a = Ok (g a)) ->
    collect_res (map f l) = Ok (map g l).
  Proof.
    induction l as [|a l IH]; intros H; [reflexivity|]. cbn [map collect_res].
    rewrite (H a (or_introl eq_refl)). cbn [rbind]. rewrite IH by (intros; apply H; now right). reflexivity.
  Qed.

  Lemma expected_single_ok o i a p : inst_ok i -> expected_single a (fst i) (mvals i (pt o p)) = Ok (W o i a p).
  Proof.
    intros [HM HC]. unfold expected_single, W.
    rewrite (collect_ok _ (fun cs => cval (snd i) (fst cs) (pt o p))); [reflexivity|].
    intros cs Hcs. destruct (HC cs Hcs) as [[_ [T _]] N]. unfold cval, mvals.
    destruct (T (map (fun m => mle m (pt o p)) (snd i))) as [v ->]; [now rewrite map_length, N|]. reflexivity.
  Qed.
End Proofs.

Arguments bsum {_} _ _.
Arguments W {_} _ _ _ _.
Arguments TV {_} _ _ _ _ _.
