(** C18, C19: univariate extrapolation and interpolation. *)
Require Import Coq.NArith.NArith Coq.setoid_ring.Ring Coq.Arith.Arith Coq.Lists.List Coq.Bool.Bool Lia.
From Verif Require Import Base.Fld Base.Lists Base.Sums Base.Poly Math.MleModel Math.MleProofs Math.MatrixModel
  Math.MatrixProps Math.UnivariateModel Field.Examples.
Import ListNotations.
Local Close Scope N_scope.
Local Open Scope nat_scope.

Lemma filter_ne_seq n i : i < n ->
  filter (fun j => negb (j =? i)) (seq 0 n) = seq 0 i ++ seq (S i) (n - S i).
Proof.
  intros H. replace n with (i + (1 + (n - S i))) at 1 by lia.
  rewrite seq_app, filter_app. cbn [Nat.add seq filter]. rewrite Nat.eqb_refl. cbn [negb].
  assert (G : forall m s, (forall x, s <= x < s + m -> x <> i) -> filter (fun j => negb (j =? i)) (seq s m) = seq s m).
  { induction m as [|m IH]; intros s HS; [reflexivity|]. cbn [seq filter].
    rewrite (proj2 (Nat.eqb_neq s i)) by (apply HS; lia). cbn [negb]. f_equal. apply IH. intros x Hx. apply HS. lia. }
  rewrite !G by (intros; lia). reflexivity.
Qed.

Section Props.
  Variable F : field.
  Local Open Scope fld_scope.
  Add Ring Fring : (f_ring F).

  (** Specification: the values of the polynomial with coefficients [c] on a domain; the value at
      infinity is the coefficient of the highest power. *)
  Definition domain_values (points : list F) (inf : bool) (c : list F) : list F :=
    map (peval c) points ++ (if inf then [last c 0] else []).

  Theorem evaluate_univariate_correct (c : list F) x : evaluate_univariate c x = peval c x.
  Proof.
    induction c as [|a c IH]; [reflexivity|].
    change (evaluate_univariate (a :: c) x) with (evaluate_univariate c x * x + a).
    rewrite IH, peval_cons. ring.
  Qed.

  (* ---------------------------------------------------------------- *)
  (** product over the other indices *)
  Definition others (n i : nat) (f : nat -> F) : F := prodn i f * prodn (n - S i) (fun j => f (S i + j)%nat).

  Lemma others_nz n i f : (i < n)%nat -> (others n i f <> 0 <-> forall j, (j < n)%nat -> j <> i -> f j <> 0).
  Proof.
    intros Hi. unfold others. split.
    - intros H j Hj NE Z. apply H. destruct (Nat.lt_ge_cases j i).
      + assert (E : prodn i f = 0) by (apply prodn_eq0; exists j; auto). rewrite E. ring.
      + assert (E : prodn (n - S i) (fun j => f (S i + j)%nat) = 0).
        { apply prodn_eq0. exists (j - S i)%nat. split; [lia|]. now replace (S i + (j - S i))%nat with j by lia. }
        rewrite E. ring.
    - intros H. apply fmul_neq0; intros Z; apply prodn_eq0 in Z; destruct Z as [j [Hj Z]]; revert Z; apply H; lia.
  Qed.

  Lemma fold_prod {A} (g : A -> F) l : forall acc, fold_left (fun acc j => acc * g j) l acc = acc * fprod (map g l).
  Proof. induction l as [|a l IH]; intros acc; cbn; [ring|]. rewrite IH. ring. Qed.

  Lemma fold_others n i f : (i < n)%nat ->
    fold_left (fun acc j => acc * f j) (filter (fun j => negb (j =? i)%nat) (seq 0 n)) 1 = others n i f.
  Proof.
    intros Hi. rewrite fold_prod, filter_ne_seq by auto. rewrite map_app, fprod_app. unfold others, prodn.
    assert (E : map f (seq (S i) (n - S i)) = map (fun j => f (S i + j)%nat) (seq 0 (n - S i))).
    { rewrite <- (Nat.add_0_r (S i)) at 1. generalize (n - S i)%nat as m. generalize 0%nat as s.
      intros s m. revert s. induction m as [|m IH]; intros s; [reflexivity|]. cbn [seq map]. f_equal.
      rewrite <- IH. do 2 f_equal. lia. }
    rewrite E. ring.
  Qed.

  Lemma collect_res_ok {A} (l : list (res A)) xs : l = map Ok xs -> collect_res l = Ok xs.
  Proof. intros ->. induction xs as [|x xs IH]; [reflexivity|]. cbn [map collect_res rbind]. now rewrite IH. Qed.

  Lemma collect_res_err {A} (l : list (res A)) : (forall r, In r l -> r <> Panic) -> In Err l -> collect_res l = Err.
  Proof.
    induction l as [|r l IH]; intros HP HI; [destruct HI|]. cbn [collect_res].
    destruct HI as [->|HI]; [reflexivity|].
    destruct r; [|reflexivity|exfalso; apply (HP Panic); [now left|reflexivity]].
    cbn [rbind]. rewrite IH; auto. intros r Hr. apply HP. now right.
  Qed.

  Definition denom (points : list F) (i : nat) : F :=
    others (length points) i (fun j => nth i points 0 - nth j points 0).

  (** A domain is built exactly from pairwise distinct points. *)
  Theorem from_points_correct (points : list F) inf :
    (NoDup points -> exists d, from_points points inf = Ok d /\ ed_points d = points /\ ed_inf d = inf) /\
    (~ NoDup points -> from_points points inf = Err).
  Proof.
    unfold from_points, barycentric_weights. set (n := length points).
    split.
    - intros ND.
      rewrite (collect_res_ok _ (map (fun i => finv (denom points i)) (seq 0 n))).
      + eexists. split; [reflexivity|]. auto.
      + rewrite map_map. apply map_ext_in. intros i Hi. apply in_seq in Hi. cbv zeta.
        unfold n in *. rewrite fold_others by lia. fold (denom points i).
        rewrite (proj2 (feqb_false F _ _)); auto. apply others_nz; [lia|].
        intros j Hj NE Z. apply fsub_eq0 in Z. apply NE. symmetry. revert Z. apply NoDup_nth; auto; lia.
    - intros NN.
      rewrite collect_res_err; [reflexivity| |].
      + intros r Hr. apply in_map_iff in Hr. destruct Hr as [i [<- Hi]]. cbv zeta. destruct (feqb _ _); discriminate.
      + destruct (in_dec (fun a b : res F => ltac:(decide equality; apply feq_dec) : {a = b} + {a <> b}) Err
          (map (fun i => let product := fold_left (fun acc j => acc * (nth i points 0 - nth j points 0))
             (filter (fun j => negb (j =? i)%nat) (seq 0 n)) 1 in
             if feqb product 0 then Err else Ok (finv product)) (seq 0 n))) as [I|NI]; auto.
        exfalso. apply NN. apply (NoDup_nth points 0). intros i j Hi Hj E.
        destruct (Nat.eq_dec i j) as [|NE]; auto. exfalso. apply NI. apply in_map_iff. exists i.
        split; [|apply in_seq; fold n in Hi; lia]. cbv zeta. unfold n. rewrite fold_others by auto.
        replace (others _ _ _) with (0 : F); [now rewrite feqb_refl|].
        destruct (feq_dec F (others (length points) i (fun j => nth i points 0 - nth j points 0)) 0) as [|NZ]; auto.
        exfalso. rewrite others_nz in NZ by auto. apply (NZ j); auto. rewrite E. ring.
  Qed.

  Lemma from_points_weights points inf d : from_points points inf = Ok d ->
    NoDup points /\ ed_points d = points /\ ed_inf d = inf /\
    ed_weights d = map (fun i => finv (denom points i)) (seq 0 (length points)) /\
    (forall i, (i < length points)%nat -> denom points i <> 0).
  Proof.
    intros H.
    assert (ND : NoDup points).
    { destruct (ListDec.NoDup_dec (feq_dec F) points) as [|N]; auto.
      rewrite (proj2 (from_points_correct points inf) N) in H. discriminate. }
    assert (NZ : forall i, (i < length points)%nat -> denom points i <> 0).
    { intros i Hi. apply others_nz; auto. intros j Hj NE Z. apply fsub_eq0 in Z. apply NE. symmetry.
      revert Z. apply NoDup_nth; auto; lia. }
    unfold from_points, barycentric_weights in H.
    rewrite (collect_res_ok _ (map (fun i => finv (denom points i)) (seq 0 (length points)))) in H.
    - cbn [rbind] in H. injection H as <-. cbn. auto.
    - rewrite map_map. apply map_ext_in. intros i Hi. apply in_seq in Hi. cbv zeta.
      rewrite fold_others by lia. fold (denom points i). rewrite (proj2 (feqb_false F _ _)); auto. apply NZ. lia.
  Qed.

  (* ---------------------------------------------------------------- *)
  (** Lagrange evaluations *)
  Definition lag (points : list F) (i : nat) (x : F) : F :=
    others (length points) i (fun j => x - nth j points 0) * finv (denom points i).

  Lemma suffix_products_ok (points : list F) x : exists r, suffix_products points x = Some r /\
    length r = length points /\
    forall i, (i < length points)%nat -> nth i r 0 = @prodn F (length points - S i) (fun j => x - nth (S i + j) points 0).
  Proof.
    unfold suffix_products. set (n := length points).
    assert (G : forall k, (k <= n - 1)%nat -> exists r,
      ofold (fun r i => do y <- nth_error r i; do p <- nth_error points i;
                      if (i - 1 <? length r)%nat then Some (upd r (i - 1) (y * (x - p))) else None)
        (rev (seq (n - k) k)) (repeat 1 n) = Some r /\ length r = n /\
      forall i, (i < n)%nat -> nth i r 0 = if (n - 1 - k <=? i)%nat then prodn (n - S i) (fun j => x - nth (S i + j) points 0) else 1).
    { induction k as [|k IH]; intros Hk.
      - exists (repeat 1 n). split; [reflexivity|]. split; [apply repeat_length|]. intros i Hi.
        rewrite nth_repeat0 by auto. destruct (Nat.leb_spec (n - 1 - 0) i); auto.
        replace (n - S i)%nat with 0%nat by lia. reflexivity.
      - destruct IH as [r [E [L N]]]; [lia|].
        replace (n - S k)%nat with (n - k - 1)%nat by lia.
        cbn [seq rev]. replace (S (n - k - 1)) with (n - k)%nat by lia.
        rewrite ofold_app, E. cbn [obind ofold].
        rewrite (nth_error_nth_eq r _ 0) by lia. cbn [obind].
        rewrite (nth_error_nth_eq points _ 0) by (unfold n in *; lia). cbn [obind].
        rewrite L, (proj2 (Nat.ltb_lt _ _)) by lia. cbn [obind].
        eexists. split; [reflexivity|]. split; [now rewrite upd_length|]. intros i Hi.
        rewrite upd_nth, L, (proj2 (Nat.ltb_lt (n - k - 1 - 1) n)) by lia. rewrite andb_true_r.
        destruct (Nat.eqb_spec i (n - k - 1 - 1)) as [->|NE].
        + rewrite (proj2 (Nat.leb_le (n - 1 - S k) (n - k - 1 - 1))) by lia.
          rewrite N, (proj2 (Nat.leb_le (n - 1 - k) (n - k - 1))) by lia.
          replace (n - S (n - k - 1 - 1))%nat with (1 + (n - S (n - k - 1)))%nat by lia.
          rewrite prodn_split. rewrite prodn_S, prodn_0.
          replace (S (n - k - 1 - 1) + 0)%nat with (n - k - 1)%nat by lia.
          rewrite (prodn_ext F (n - S (n - k - 1)) (fun i => x - nth (S (n - k - 1 - 1) + (1 + i)) points 0)
            (fun j => x - nth (S (n - k - 1) + j) points 0)) by (intros; do 2 f_equal; lia).
          ring.
        + rewrite N by auto. destruct (Nat.leb_spec (n - 1 - k) i), (Nat.leb_spec (n - 1 - S k) i); auto; lia. }
    destruct (G (n - 1)%nat (le_n _)) as [r [E [L N]]].
    exists r. split; [|split; auto].
    - destruct (Nat.eq_dec n 0) as [Z|NZ].
      + rewrite Z in *. cbn in *. exact E.
      + replace (n - (n - 1))%nat with 1%nat in E by lia. exact E.
    - intros i Hi. rewrite N by auto. now rewrite (proj2 (Nat.leb_le (n - 1 - (n - 1)) i)) by lia.
  Qed.

  Lemma prefix_pass_ok (x : F) : forall (rs points weights : list F) (prefix : F),
    length rs = length points -> length weights = length points ->
    length (prefix_pass rs points weights x prefix) = length points /\
    forall i, (i < length points)%nat -> nth i (prefix_pass rs points weights x prefix) 0 =
      nth i rs 0 * (prefix * prodn i (fun j => x - nth j points 0%F) * nth i weights 0%F).
  Proof.
    induction rs as [|r rs IH]; intros points weights prefix L1 L2; destruct points as [|p ps], weights as [|w ws];
      try discriminate; cbn [prefix_pass length] in *.
    - split; auto. intros; lia.
    - destruct (IH ps ws (prefix * (x - p))) as [IL IN]; try lia. split; [now rewrite IL|].
      intros [|i] Hi; cbn [nth].
      + rewrite prodn_0. ring.
      + rewrite IN by lia. change (S i) with (1 + i)%nat. rewrite prodn_split, prodn_S, prodn_0. cbn [nth Nat.add]. ring.
  Qed.

  Lemma lagrange_evals_ok (points : list F) inf d x : from_points points inf = Ok d ->
    exists l, lagrange_evals d x = Some l /\ length l = length points /\
      forall i, (i < length points)%nat -> nth i l 0 = lag points i x.
  Proof.
    intros H. destruct (from_points_weights _ _ _ H) as [ND [E1 [_ [E3 NZ]]]].
    unfold lagrange_evals. rewrite E1, E3.
    destruct (suffix_products_ok points x) as [r [Er [Lr Nr]]]. rewrite Er. cbn [obind].
    eexists. split; [reflexivity|].
    destruct (prefix_pass_ok x r points (map (fun i => finv (denom points i)) (seq 0 (length points))) 1) as [L N]; auto.
    { now rewrite map_length, seq_length. }
    split; auto. intros i Hi. rewrite N, Nr, nth_map_seq by auto. unfold lag, others. ring.
  Qed.

  Lemma lag_poly (points : list F) i : (i < length points)%nat -> is_poly (length points) (lag points i).
  Proof.
    intros Hi. unfold lag.
    apply is_poly_ext with (g := fun x => finv (denom points i) * others (length points) i (fun j => x - nth j points 0));
      [intros; ring|].
    apply is_poly_scale. unfold others.
    replace (length points) with (S (i + (length points - S i)))%nat at 1 by lia.
    apply is_poly_mul.
    - apply (is_poly_prodn F i (fun j x => x - nth j points 0)). intros j _.
      apply is_poly_ext with (g := fun x => (- nth j points 0) + 1 * x); [intros; ring|]. apply is_poly_affine.
    - apply (is_poly_prodn F _ (fun j x => x - nth (S i + j) points 0)). intros j _.
      apply is_poly_ext with (g := fun x => (- nth (S i + j) points 0) + 1 * x); [intros; ring|]. apply is_poly_affine.
  Qed.

  Lemma lag_point (points : list F) i k : (forall i, (i < length points)%nat -> denom points i <> 0) ->
    (i < length points)%nat -> (k < length points)%nat ->
    lag points i (nth k points 0) = if (i =? k)%nat then 1 else 0.
  Proof.
    intros NZ Hi Hk. unfold lag. destruct (Nat.eqb_spec i k) as [->|NE].
    - apply f_inv_r. now apply NZ.
    - assert (Z : others (length points) i (fun j => nth k points 0 - nth j points 0) = 0).
      { destruct (feq_dec F (others (length points) i (fun j => nth k points 0 - nth j points 0)) 0) as [|N]; auto.
        exfalso. rewrite others_nz in N by auto. apply (N k); auto. ring. }
      rewrite Z. ring.
  Qed.

  Lemma fold_dot (l v : list F) n : length l = n -> length v = n ->
    fold_left (fun a lv => a + snd lv * fst lv) (combine l v) 0 = sumn n (fun i => nth i v 0 * nth i l 0).
  Proof.
    intros HL HV.
    assert (G : forall (l v : list F) acc, length l = length v ->
      fold_left (fun a lv => a + snd lv * fst lv) (combine l v) acc = acc + sumn (length l) (fun i => nth i v 0 * nth i l 0)).
    { clear. induction l as [|a l IH]; intros [|b v] acc HL; try discriminate; cbn [combine fold_left length].
      - rewrite sumn_0. ring.
      - rewrite IH by (cbn in HL; lia). rewrite sumn_Sl. cbn [nth fst snd]. ring. }
    rewrite G by congruence. rewrite HL. ring.
  Qed.

  Lemma lag_sum (points : list F) c x : (forall i, (i < length points)%nat -> denom points i <> 0) -> NoDup points ->
    length c = length points ->
    sumn (length points) (fun i => peval c (nth i points 0) * lag points i x) = peval c x.
  Proof.
    intros NZ ND HL. revert x.
    apply is_poly_unique with (n := length points) (points := points); auto.
    - apply (is_poly_sumn F (length points) (length points) (fun i x => peval c (nth i points 0) * lag points i x)).
      intros i Hi. apply is_poly_scale. now apply lag_poly.
    - rewrite <- HL. apply is_poly_peval.
    - intros r Hr. apply In_nth with (d := 0) in Hr. destruct Hr as [k [Hk <-]].
      rewrite (sumn_single F _ k) by (auto; intros i Hi NE; rewrite lag_point by auto;
        rewrite (proj2 (Nat.eqb_neq i k)) by auto; ring).
      rewrite lag_point, Nat.eqb_refl by auto. ring.
  Qed.

  Lemma split_last (c : list F) n : length c = S n -> exists c' a, c = c' ++ [a] /\ length c' = n.
  Proof.
    intros H. destruct (exists_last (l := c)) as [c' [a E]]; [intros ->; discriminate|].
    exists c', a. split; auto. subst c. rewrite app_length in H. cbn in H. lia.
  Qed.

  (** C18: extrapolation recovers the polynomial at every point. *)
  Theorem extrapolate_correct (points : list F) inf d c z :
    from_points points inf = Ok d -> length c = ed_size d ->
    extrapolate d (domain_values points inf c) z = Ok (peval c z).
  Proof.
    intros H HL. destruct (from_points_weights _ _ _ H) as [ND [E1 [E2 [E3 NZ]]]].
    unfold extrapolate. unfold ed_size in *. rewrite E1, E2 in *.
    assert (LV : length (domain_values points inf c) = (length points + (if inf then 1 else 0))%nat).
    { unfold domain_values. rewrite app_length, map_length. destruct inf; reflexivity. }
    rewrite LV, Nat.eqb_refl. cbn [negb].
    destruct (lagrange_evals_ok points inf d z H) as [l [El [Ll Nl]]]. rewrite El. cbn [of_opt rbind].
    destruct inf.
    - destruct (split_last c (length points)) as [c' [a [-> Lc']]]; [lia|].
      unfold domain_values. rewrite last_last. rewrite rev_app_distr. cbn [rev app]. rewrite removelast_last, map_length.
      f_equal.
      set (vals := map _ _).
      assert (VL : length vals = length points).
      { unfold vals. rewrite map_length, combine_length, map_length. lia. }
      assert (VN : forall i, (i < length points)%nat -> nth i vals 0 = peval c' (nth i points 0)).
      { intros i Hi. unfold vals. rewrite (nth_map_lt _ _ _ _ (0, 0)) by (rewrite combine_length, map_length; lia).
        rewrite combine_nth by (now rewrite map_length). cbn [fst snd].
        rewrite (nth_map_lt _ _ _ _ 0) by auto. rewrite peval_app, peval_cons, peval_nil, Lc'. ring. }
      rewrite (fold_dot l vals (length points)) by auto.
      rewrite (sumn_ext F _ _ (fun i => peval c' (nth i points 0) * lag points i z))
        by (intros i Hi; now rewrite VN, Nl).
      rewrite lag_sum by auto. rewrite peval_app, peval_cons, peval_nil, Lc'. ring.
    - f_equal. unfold domain_values. rewrite app_nil_r. rewrite Nat.add_0_r in HL.
      rewrite (fold_dot l _ (length points)) by (auto; now rewrite map_length).
      rewrite (sumn_ext F _ _ (fun i => peval c (nth i points 0) * lag points i z))
        by (intros i Hi; rewrite Nl by auto; now rewrite (nth_map_lt _ _ _ _ 0)).
      rewrite lag_sum by auto. ring.
  Qed.

  Theorem extrapolate_wrong_length (d : evdomain F) values z :
    length values <> ed_size d -> extrapolate d values z = Err.
  Proof. intros H. unfold extrapolate. now rewrite (proj2 (Nat.eqb_neq _ _) H). Qed.

  (* ---------------------------------------------------------------- *)
  (** C19 *)
  Lemma powers_from_ok (x : F) n : forall acc, length (powers_from acc x n) = n /\
    forall j, (j < n)%nat -> nth j (powers_from acc x n) 0 = acc * fpow x j.
  Proof.
    induction n as [|n IH]; intros acc; cbn [powers_from length]; [split; auto; intros; lia|].
    destruct (IH (acc * x)) as [L N]. split; [now rewrite L|]. intros [|j] Hj; cbn [nth fpow]; [ring|].
    rewrite N by lia. ring.
  Qed.

  Lemma flat_powers (xs : list F) n : length (flat_map (fun x => powers_from 1 x n) xs) = (length xs * n)%nat /\
    forall i j, (i < length xs)%nat -> (j < n)%nat ->
      nth (i * n + j) (flat_map (fun x => powers_from 1 x n) xs) 0 = fpow (nth i xs 0) j.
  Proof.
    induction xs as [|x xs [IL IN]]; cbn [flat_map length]; [split; auto; intros; lia|].
    destruct (powers_from_ok x n 1) as [L N]. split; [rewrite app_length, IL, L; lia|].
    intros [|i] j Hi Hj; cbn [nth].
    - rewrite app_nth1 by lia. cbn [Nat.mul Nat.add]. rewrite N by auto. ring.
    - rewrite app_nth2 by lia. rewrite L. replace (S i * n + j - n)%nat with (i * n + j)%nat by lia.
      apply IN; lia.
  Qed.

  Definition vdm (points : list F) (inf : bool) (i j : nat) : F :=
    if (i <? length points)%nat then fpow (nth i points 0) j
    else if (j =? length points)%nat then 1 else 0.

  Lemma vandermonde_ok (points : list F) (inf : bool) : let n := (length points + if inf then 1 else 0)%nat in
    exists m, vandermonde points inf = Some m /\ is_mat F n n (vdm points inf) m.
  Proof.
    cbv zeta. unfold vandermonde. set (n := (length points + _)%nat).
    destruct (flat_powers points n) as [L N].
    assert (HM : is_mat F n n (fun i j => if (i <? length points)%nat then fpow (nth i points 0) j else 0)
       (mkMat n n (flat_map (fun x => powers_from 1 x n) points ++ (if inf then repeat 0 n else [])))).
    { split; [reflexivity|]. split; [reflexivity|]. split.
      - red. cbn [mt_el mt_m mt_n]. rewrite app_length, L. unfold n at 4.
        destruct inf; [rewrite repeat_length|cbn [length]]; lia.
      - intros i j Hi Hj. unfold ent. cbn [mt_el mt_n]. destruct (Nat.ltb_spec i (length points)).
        + rewrite app_nth1; [now apply N|]. rewrite L.
          assert ((i + 1) * n <= length points * n)%nat by (apply Nat.mul_le_mono_r; lia). lia.
        + unfold n in Hi. destruct inf; [|lia]. rewrite app_nth2.
          * apply nth_repeat0. rewrite L. assert (i = length points) by lia. subst i. lia.
          * rewrite L. assert (i = length points) by lia. subst i. lia. }
    destruct inf.
    - destruct (mat_set_ok F _ n n _ (n - 1) (n - 1) 1 HM) as [m [E Hm]]; try (unfold n; lia).
      exists m. split; auto. eapply is_mat_ext; [exact Hm|]. intros i j Hi Hj. cbv beta. unfold vdm.
      unfold n in *. replace (length points + 1 - 1)%nat with (length points) by lia.
      destruct (Nat.ltb_spec i (length points)).
      + rewrite (proj2 (Nat.eqb_neq i (length points))) by lia. reflexivity.
      + rewrite (proj2 (Nat.eqb_eq i (length points))) by lia. reflexivity.
    - eexists. split; [reflexivity|]. eapply is_mat_ext; [exact HM|]. intros i j Hi Hj. cbv beta. unfold vdm.
      unfold n in Hi. rewrite (proj2 (Nat.ltb_lt i (length points))) by lia. reflexivity.
  Qed.

  Lemma domain_values_vdm (points : list F) (inf : bool) c i : let n := (length points + if inf then 1 else 0)%nat in
    length c = n -> (i < n)%nat ->
    nth i (domain_values points inf c) 0 = sumn n (fun j => vdm points inf i j * nth j c 0).
  Proof.
    cbv zeta. intros HL Hi. unfold domain_values, vdm.
    destruct (Nat.ltb_spec i (length points)) as [L|L].
    - rewrite app_nth1 by (now rewrite map_length). rewrite (nth_map_lt _ _ _ _ 0) by auto.
      unfold peval. rewrite HL. apply sumn_ext. intros. ring.
    - destruct inf; [|lia]. rewrite app_nth2 by (now rewrite map_length). rewrite map_length.
      replace (i - length points)%nat with 0%nat by lia. cbn [nth].
      destruct (split_last c (length points)) as [c' [a [-> Lc]]]; [lia|]. rewrite last_last.
      rewrite (sumn_single F _ (length points)).
      + rewrite Nat.eqb_refl, app_nth2, Lc, Nat.sub_diag by lia. cbn [nth]. ring.
      + lia.
      + intros j Hj NE. rewrite (proj2 (Nat.eqb_neq j _)) by auto. ring.
  Qed.

  Lemma vdm_nonsingular (points : list F) (inf : bool) : NoDup points ->
    ~ singular (length points + if inf then 1 else 0) (vdm points inf).
  Proof.
    intros ND [v [[j [Hj NZ]] HV]]. set (n := (length points + _)%nat) in *.
    set (c := map v (seq 0 n)).
    assert (Lc : length c = n) by (unfold c; now rewrite map_length, seq_length).
    assert (NC : forall i, (i < n)%nat -> nth i c 0 = v i) by (intros; unfold c; now rewrite nth_map_seq).
    assert (DV : forall i, (i < n)%nat -> nth i (domain_values points inf c) 0 = 0).
    { intros i Hi. rewrite domain_values_vdm by auto. fold n. transitivity (sumn n (fun j => vdm points inf i j * v j)); [|auto]. apply sumn_ext.
      intros k Hk. now rewrite NC. }
    assert (PZ : forall r, In r points -> peval c r = 0).
    { intros r Hr. apply In_nth with (d := 0) in Hr. destruct Hr as [k [Hk <-]].
      transitivity (nth k (domain_values points inf c) 0); [|apply DV; unfold n; lia]. unfold domain_values. rewrite app_nth1 by (now rewrite map_length).
      now rewrite (nth_map_lt _ _ _ _ 0). }
    assert (AZ : forall i, nth i c 0 = 0).
    { destruct inf.
      - destruct (split_last c (length points)) as [c' [a [E Lc']]]; [unfold n in *; lia|].
        assert (a = 0).
        { transitivity (nth (length points) (domain_values points true c) 0); [|apply DV; unfold n; lia]. unfold domain_values.
          rewrite app_nth2 by (rewrite map_length; lia). rewrite map_length, Nat.sub_diag. cbn [nth].
          now rewrite E, last_last. }
        subst a.
        assert (Z : Forall (fun a => a = 0) c').
        { apply roots_zero with (roots := points); auto; [lia|]. intros r Hr.
          transitivity (peval c r); [|auto]. rewrite E, peval_app, peval_cons, peval_nil. ring. }
        intros i. rewrite E. destruct (Nat.lt_ge_cases i (length c')).
        + rewrite app_nth1 by auto. rewrite Forall_forall in Z. apply Z. now apply nth_In.
        + rewrite app_nth2 by auto. destruct (i - length c')%nat as [|[|]]; reflexivity.
      - assert (Z : Forall (fun a => a = 0) c).
        { apply roots_zero with (roots := points); auto. unfold n in *. lia. }
        intros i. destruct (Nat.lt_ge_cases i (length c)); [|now apply nth_overflow].
        rewrite Forall_forall in Z. apply Z. now apply nth_In. }
    apply NZ. rewrite <- (NC j Hj). apply AZ.
  Qed.

  Lemma interpolation_domain_ok points inf d : from_points points inf = Ok d ->
    exists dom b, interpolation_domain d = Ok dom /\ id_ed dom = d /\
      let n := ed_size d in is_mat F n n b (id_mat dom) /\
      meq n (mmul n (vdm points inf) b) idm /\ meq n (mmul n b (vdm points inf)) idm.
  Proof.
    intros H. destruct (from_points_weights _ _ _ H) as [ND [E1 [E2 [E3 NZ]]]].
    unfold interpolation_domain, ed_size. rewrite E1, E2. set (n := (length points + _)%nat).
    destruct (vandermonde_ok points inf) as [v [Ev Hv]]. fold n in Hv. rewrite Ev. cbn [of_opt rbind].
    pose proof Hv as [V1 [V2 [V3 V4]]].
    destruct (inverse_into_correct F v (mat_zeros n n) n) as [[S _]|[_ [b [Eb [B1 [B2 [B3 [B4 B5]]]]]]]]; auto.
    { red. cbn. now rewrite repeat_length. }
    - exfalso. apply (vdm_nonsingular points inf ND). destruct S as [w [Hw Zw]].
      exists w. split; auto. intros i Hi. transitivity (sumn n (fun j => ent v i j * w j)); [|auto]. apply sumn_ext. intros k Hk. now rewrite V4.
    - rewrite Eb. cbn [expect rbind]. exists (mkInt d b), (ent b). split; auto. split; auto.
      cbv zeta. split.
      + rewrite <- B1 at 1. rewrite <- B2 at 1. now apply is_mat_self.
      + split.
        * intros i j Hi Hj. rewrite <- (B4 i j Hi Hj). apply sumn_ext. intros k Hk. now rewrite V4.
        * intros i j Hi Hj. rewrite <- (B5 i j Hi Hj). apply sumn_ext. intros k Hk. now rewrite V4.
  Qed.

  (** C19: the interpolation domain is always built (no panic); interpolation recovers the
      coefficients from the values, and for arbitrary values returns the unique polynomial that
      takes them. *)
  Theorem interpolate_correct (points : list F) inf d :
    from_points points inf = Ok d ->
    exists dom, interpolation_domain d = Ok dom /\
      (forall c, length c = ed_size d -> interpolate dom (domain_values points inf c) = Ok c) /\
      (forall values, length values = ed_size d ->
         exists c, interpolate dom values = Ok c /\ length c = ed_size d /\ domain_values points inf c = values /\
           forall c', length c' = ed_size d -> domain_values points inf c' = values -> c' = c) /\
      (forall values, length values <> ed_size d -> interpolate dom values = Err).
  Proof.
    intros H. destruct (interpolation_domain_ok points inf d H) as [dom [b [E [ED HB]]]].
    destruct (from_points_weights _ _ _ H) as [ND [E1 [E2 [E3 NZ]]]].
    assert (SZ : ed_size d = (length points + if inf then 1 else 0)%nat) by (unfold ed_size; now rewrite E1, E2).
    cbv zeta in HB. destruct HB as [HM [M1 M2]]. set (n := ed_size d) in *.
    exists dom. split; auto.
    assert (LV : forall c, length (domain_values points inf c) = n).
    { intros c. unfold domain_values. rewrite app_length, map_length, SZ. destruct inf; reflexivity. }
    assert (IV : forall values, length values = n -> exists r, interpolate dom values = Ok r /\ length r = n /\
       forall i, (i < n)%nat -> nth i r 0 = sumn n (fun j => b i j * nth j values 0)).
    { intros values HL. unfold interpolate. rewrite ED. fold n. rewrite HL, Nat.eqb_refl. cbn [negb].
      destruct HM as [B1 [B2 [B3 B4]]].
      destruct (mul_vec_into_correct F (id_mat dom) values (repeat 0 n)) as [r [Er [Lr Nr]]]; auto.
      { congruence. } { rewrite repeat_length. auto. }
      rewrite repeat_length in Lr, Nr. rewrite Er. exists r. split; auto. split; auto.
      intros i Hi. rewrite Nr, HL by auto. apply sumn_ext. intros j Hj. now rewrite B4. }
    assert (RT : forall c, length c = n -> interpolate dom (domain_values points inf c) = Ok c).
    { intros c Lc. destruct (IV _ (LV c)) as [r [Er [Lr Nr]]]. rewrite Er. f_equal.
      apply (list_eq_nth _ _ 0); [congruence|]. intros i Hi. rewrite Lr in Hi. rewrite Nr by auto.
      rewrite (sumn_ext F n _ (fun j => sumn n (fun k => b i j * vdm points inf j k * nth k c 0))).
      2:{ intros j Hj. rewrite domain_values_vdm by (rewrite <- SZ; auto). rewrite <- SZ, <- sumn_scale.
          apply sumn_ext. intros. ring. }
      rewrite sumn_swap.
      rewrite (sumn_ext F n _ (fun k => (if (i =? k)%nat then 1 else 0) * nth k c 0)).
      2:{ intros k Hk. rewrite sumn_scale_r. f_equal. now apply M2. }
      rewrite sum_delta by auto. ring. }
    split; [exact RT|]. split.
    - intros values HL. destruct (IV values HL) as [r [Er [Lr Nr]]]. exists r. split; auto. split; auto.
      split.
      + apply (list_eq_nth _ _ 0); [now rewrite LV|]. intros i Hi. rewrite LV in Hi.
        rewrite domain_values_vdm by (rewrite <- SZ; auto). rewrite <- SZ.
        rewrite (sumn_ext F n _ (fun j => sumn n (fun k => vdm points inf i j * b j k * nth k values 0))).
        2:{ intros j Hj. rewrite Nr, <- sumn_scale by auto. apply sumn_ext. intros. ring. }
        rewrite sumn_swap.
        rewrite (sumn_ext F n _ (fun k => (if (i =? k)%nat then 1 else 0) * nth k values 0)).
        2:{ intros k Hk. rewrite sumn_scale_r. f_equal. now apply M1. }
        rewrite sum_delta by auto. ring.
      + intros c' Lc' Ec'. pose proof (RT c' Lc') as R. rewrite Ec', Er in R. congruence.
    - intros values HL. unfold interpolate. rewrite ED. fold n. now rewrite (proj2 (Nat.eqb_neq _ _) HL).
  Qed.

  (** Extrapolating a line. *)
  Theorem extrapolate_line_correct (x0 x1 z : F) : extrapolate_line x0 x1 z = peval [x0; x1 - x0] z.
  Proof. unfold extrapolate_line. rewrite !peval_cons, peval_nil. ring. Qed.
End Props.

Arguments domain_values {_} _ _ _.

Example from_points_ex : exists d, from_points (els [0; 1; 2]%N) true = Ok d /\ ed_size d = 4.
Proof.
  destruct (proj1 (from_points_correct X16 (els [0; 1; 2]%N) true)) as [d [E [E1 E2]]].
  - repeat constructor; cbn; intuition discriminate.
  - exists d. split; auto. unfold ed_size. now rewrite E1, E2.
Qed.

(** The polynomial 5 + 3 X + X^2 + 7 X^3 from its values at 0, 1, 2 and infinity. *)
Example extrapolate_ex :
  shown (try d <- from_points (els [0; 1; 2]%N) true;
         try y <- extrapolate d (domain_values (els [0; 1; 2]%N) true (els [5; 3; 1; 7]%N)) (el 9);
         Ok [y; peval (els [5; 3; 1; 7]%N) (el 9)]) = Ok [1; 1]%N.
Proof. vm_compute. reflexivity. Qed.

Example interpolate_ex :
  shown (try d <- from_points (els [0; 1; 2]%N) true; try dom <- interpolation_domain d;
         interpolate dom (els [5; 0; 1; 7]%N)) = Ok [5; 2; 0; 7]%N.
Proof. vm_compute. reflexivity. Qed.

Example from_points_dup_ex : shown (try d <- from_points (els [0; 1; 1]%N) true; Ok (ed_points d)) = Err.
Proof. vm_compute. reflexivity. Qed.
