(** Univariate polynomials as coefficient lists (lowest degree first): evaluation and the root bound. *)
Require Import Coq.setoid_ring.Ring Coq.Arith.Arith Coq.Lists.List Coq.Bool.Bool Lia.
From Verif Require Import Base.Fld Base.Lists Base.Sums.
Import ListNotations.

Section Poly.
  Variable F : field.
  Local Open Scope fld_scope.
  Add Ring Fring : (f_ring F).

  (** Specification: [peval c x = sum_i c_i x^i]. *)
  Definition peval (c : list F) (x : F) : F := sumn (length c) (fun i => nth i c 0 * fpow x i).

  Lemma sumn_Sl n (f : nat -> F) : sumn (S n) f = f 0%nat + sumn n (fun i => f (S i)).
  Proof. change (S n) with (1 + n)%nat. rewrite sumn_split, sumn_1. reflexivity. Qed.

  Lemma peval_nil x : peval [] x = 0.
  Proof. reflexivity. Qed.

  Lemma peval_cons a c x : peval (a :: c) x = a + x * peval c x.
  Proof.
    unfold peval. cbn [length]. rewrite sumn_Sl. cbn [nth fpow].
    rewrite <- sumn_scale. f_equal; [ring|]. apply sumn_ext. intros. ring.
  Qed.

  Lemma peval_app c d x : peval (c ++ d) x = peval c x + fpow x (length c) * peval d x.
  Proof.
    induction c as [|a c IH]; cbn [app length fpow]; [rewrite peval_nil; ring|].
    rewrite !peval_cons, IH. ring.
  Qed.

  Lemma peval_zero c x : Forall (fun a => a = 0) c -> peval c x = 0.
  Proof. induction 1 as [|a c -> H IH]; [apply peval_nil|]. rewrite peval_cons, IH. ring. Qed.

  Fixpoint padd (c d : list F) : list F :=
    match c, d with
    | [], _ => d
    | _, [] => c
    | a :: c', b :: d' => (a + b) :: padd c' d'
    end.

  Lemma padd_length c d : length (padd c d) = Nat.max (length c) (length d).
  Proof. revert d. induction c as [|a c IH]; intros [|b d]; cbn; auto. Qed.

  Lemma peval_padd c d x : peval (padd c d) x = peval c x + peval d x.
  Proof.
    revert d. induction c as [|a c IH]; intros [|b d]; cbn [padd]; rewrite ?peval_nil, ?peval_cons; try ring.
    rewrite IH. ring.
  Qed.

  Lemma padd_nth c d i : nth i (padd c d) 0 = nth i c 0 + nth i d 0.
  Proof.
    revert d i. induction c as [|a c IH]; intros [|b d] [|i]; cbn; try ring. apply IH.
  Qed.

  Definition pscale (k : F) (c : list F) : list F := map (fun a => k * a) c.

  Lemma peval_pscale k c x : peval (pscale k c) x = k * peval c x.
  Proof. induction c as [|a c IH]; cbn [pscale map]; rewrite ?peval_nil, ?peval_cons; [ring|]. unfold pscale in IH. rewrite IH. ring. Qed.

  Fixpoint pmul (c d : list F) : list F :=
    match c with
    | [] => []
    | a :: c' => padd (pscale a d) (0 :: pmul c' d)
    end.

  Lemma peval_pmul c d x : peval (pmul c d) x = peval c x * peval d x.
  Proof.
    induction c as [|a c IH]; cbn [pmul]; [rewrite peval_nil; ring|].
    rewrite peval_padd, peval_pscale, !peval_cons. rewrite IH. ring.
  Qed.

  Lemma pmul_length c d : (length (pmul c d) <= length c + length d)%nat.
  Proof.
    induction c as [|a c IH]; cbn [pmul length]; [lia|].
    rewrite padd_length. unfold pscale. rewrite map_length. cbn [length]. lia.
  Qed.

  Lemma pmul_length_S c d : c <> [] -> d <> [] -> (length (pmul c d) <= length c + length d - 1)%nat.
  Proof.
    intros HC HD. induction c as [|a c IH]; [congruence|]. cbn [pmul length].
    rewrite padd_length. unfold pscale. rewrite map_length. cbn [length].
    destruct d; [congruence|]. cbn [length] in *. destruct c; [cbn; lia|].
    specialize (IH ltac:(congruence)). lia.
  Qed.

  (** Division by [X - r]. *)
  Lemma factor_root c r : exists q, length q = (length c - 1)%nat /\
    forall x, peval c x = (x - r) * peval q x + peval c r.
  Proof.
    induction c as [|a c IH].
    - exists []. split; auto. intros x. rewrite !peval_nil. ring.
    - destruct IH as [q [L H]]. destruct c as [|b c'].
      + exists []. split; auto. intros x. rewrite !peval_cons, !peval_nil. ring.
      + exists (padd (peval (b :: c') r :: q) []). rewrite padd_length. cbn [length] in *. split; [lia|].
        intros x. rewrite peval_padd, !(peval_cons a), peval_nil, (peval_cons (peval _ r)), (H x). ring.
  Qed.

  Lemma peval_ext_zero_aux n : forall c roots, length c = n -> NoDup roots -> (n <= length roots)%nat ->
    (forall r, In r roots -> peval c r = 0) -> forall x, peval c x = 0.
  Proof.
    induction n as [|n IH]; intros c roots HL ND HR HZ x.
    - destruct c; [|discriminate]. apply peval_nil.
    - destruct roots as [|r roots]; [cbn in HR; lia|]. inversion_clear ND as [|? ? NI ND'].
      destruct (factor_root c r) as [q [Lq Hq]].
      assert (Z : peval c r = 0) by (apply HZ; now left).
      rewrite Hq, Z. rewrite (IH q roots); auto; [ring|lia|cbn in HR; lia|].
      intros s Hs. assert (E : peval c s = 0) by (apply HZ; now right). rewrite Hq, Z in E.
      assert (E' : (s - r) * peval q s = 0) by (rewrite <- E; ring).
      apply fmul_eq0 in E'. destruct E' as [E'|E']; auto. apply fsub_eq0 in E'. subst. contradiction.
  Qed.

  (** A polynomial with at least as many distinct roots as coefficients is zero as a function... *)
  Lemma peval_ext_zero c roots : NoDup roots -> (length c <= length roots)%nat ->
    (forall r, In r roots -> peval c r = 0) -> forall x, peval c x = 0.
  Proof. intros. now apply (peval_ext_zero_aux (length c) c roots). Qed.

  (** ... and all its coefficients are zero. *)
  Theorem roots_zero c : forall roots, NoDup roots -> (length c <= length roots)%nat ->
    (forall r, In r roots -> peval c r = 0) -> Forall (fun a => a = 0) c.
  Proof.
    (* peel the top coefficient by dividing repeatedly *)
    assert (G : forall n c, length c = n -> forall roots, NoDup roots -> (n <= length roots)%nat ->
      (forall r, In r roots -> peval c r = 0) -> forall i, nth i c 0 = 0).
    { induction n as [|n IH]; intros d HL roots ND HR HZ i.
      - destruct d; [|discriminate]. destruct i; reflexivity.
      - destruct roots as [|r roots]; [cbn in HR; lia|]. inversion_clear ND as [|? ? NI ND'].
        (* explicit quotient: q_k = sum_{j>k} d_j r^(j-k-1), so d_0 = -r q_0 and d_{k+1} = q_k - r q_{k+1} *)
        assert (Q : forall e, exists q, length q = (length e - 1)%nat /\
           (forall k, nth k e 0 = (match k with O => peval e r | S k' => nth k' q 0 end) - r * nth k q 0)).
        { induction e as [|a e IHe].
          - exists []. split; auto. intros [|k]; cbn [nth]; [rewrite peval_nil; ring|destruct k; ring].
          - destruct IHe as [q [Lq Hq]]. destruct e as [|b e'].
            + exists []. split; auto. intros [|[|k]]; cbn [nth]; [rewrite peval_cons, peval_nil; ring|ring|].
              destruct k; ring.
            + exists (peval (b :: e') r :: q). split; [cbn [length] in *; lia|].
              intros [|k]; cbn [nth].
              * rewrite (peval_cons a). ring.
              * specialize (Hq k). destruct k; exact Hq. }
        destruct (Q d) as [q [Lq Hq]].
        assert (EV : forall x, peval d x = (x - r) * peval q x + peval d r).
        { intros x. unfold peval at 1. rewrite HL. rewrite sumn_Sl. rewrite (Hq 0%nat). cbn [fpow].
          rewrite (sumn_ext F n _ (fun i => nth i q 0 * fpow x (S i) - r * (nth (S i) q 0 * fpow x (S i))))
            by (intros i0 Hi0; rewrite (Hq (S i0)); cbn [fpow]; ring).
          rewrite sumn_sub, sumn_scale.
          assert (P1 : sumn n (fun i => nth i q 0 * fpow x (S i)) = x * peval q x).
          { unfold peval. rewrite Lq, HL. replace (S n - 1)%nat with n by lia. rewrite <- sumn_scale.
            apply sumn_ext. intros. cbn [fpow]. ring. }
          assert (P2 : sumn n (fun i => nth (S i) q 0 * fpow x (S i)) = peval q x - nth 0 q 0).
          { unfold peval. rewrite Lq, HL. replace (S n - 1)%nat with n by lia.
            destruct n as [|n'].
            - rewrite !sumn_0. destruct q; [cbn; ring|cbn in Lq; lia].
            - rewrite (sumn_Sl n' (fun i => nth i q 0 * fpow x i)). cbn [fpow].
              rewrite sumn_S. rewrite (nth_overflow q) by lia. ring. }
          rewrite P1, P2. ring. }
        assert (Zr : peval d r = 0) by (apply HZ; now left).
        assert (Zq : forall i, nth i q 0 = 0).
        { apply (IH q ltac:(lia) roots ND'); [cbn in HR; lia|]. intros s Hs.
          assert (E : peval d s = 0) by (apply HZ; now right). rewrite EV, Zr in E.
          assert (E' : (s - r) * peval q s = 0) by (rewrite <- E; ring).
          apply fmul_eq0 in E'. destruct E' as [E'|E']; auto. apply fsub_eq0 in E'. subst. contradiction. }
        rewrite Hq, Zq. destruct i; [rewrite Zr|rewrite Zq]; ring. }
    intros roots ND HR HZ. apply Forall_forall. intros a Ha.
    apply In_nth with (d := 0) in Ha. destruct Ha as [i [_ <-]].
    now apply (G (length c) c eq_refl roots).
  Qed.

  (** Uniqueness: equal lengths, agreeing on enough points. *)
  Corollary peval_unique c d points : length c = length d -> NoDup points -> (length c <= length points)%nat ->
    (forall r, In r points -> peval c r = peval d r) -> c = d.
  Proof.
    intros HL ND HR HE.
    assert (Z : Forall (fun a => a = 0) (padd c (pscale (- (1)) d))).
    { apply roots_zero with (roots := points); auto.
      - rewrite padd_length. unfold pscale. rewrite map_length. lia.
      - intros r Hr. rewrite peval_padd, peval_pscale, HE by auto. ring. }
    apply (list_eq_nth _ _ 0); auto. intros i Hi.
    rewrite Forall_forall in Z.
    assert (E : nth i (padd c (pscale (- (1)) d)) 0 = 0).
    { apply Z. apply nth_In. rewrite padd_length. lia. }
    rewrite padd_nth in E. unfold pscale in E. rewrite (nth_map_lt _ _ _ _ 0) in E by lia.
    apply fsub_eq0. transitivity (nth i c 0 + - (1) * nth i d 0); [ring|exact E].
  Qed.

  (** [f] is computed by a polynomial with at most [n] coefficients. *)
  Definition is_poly (n : nat) (f : F -> F) : Prop :=
    exists c, (length c <= n)%nat /\ forall x, f x = peval c x.

  Lemma is_poly_ext n f g : (forall x, f x = g x) -> is_poly n g -> is_poly n f.
  Proof. intros E [c [L H]]. exists c. split; auto. intros. now rewrite E. Qed.

  Lemma is_poly_le n m f : (n <= m)%nat -> is_poly n f -> is_poly m f.
  Proof. intros L [c [L' H]]. exists c. split; auto. lia. Qed.

  Lemma is_poly_const k : is_poly 1 (fun _ => k).
  Proof. exists [k]. split; auto. intros. rewrite peval_cons, peval_nil. ring. Qed.

  Lemma is_poly_0 : is_poly 0 (fun _ => 0).
  Proof. exists []. split; auto. Qed.

  Lemma is_poly_affine a b : is_poly 2 (fun x => a + b * x).
  Proof. exists [a; b]. split; auto. intros. rewrite !peval_cons, peval_nil. ring. Qed.

  Lemma is_poly_add n f g : is_poly n f -> is_poly n g -> is_poly n (fun x => f x + g x).
  Proof.
    intros [c [L H]] [d [L' H']]. exists (padd c d). rewrite padd_length. split; [lia|].
    intros. now rewrite peval_padd, H, H'.
  Qed.

  Lemma is_poly_scale n k f : is_poly n f -> is_poly n (fun x => k * f x).
  Proof.
    intros [c [L H]]. exists (pscale k c). unfold pscale at 1. rewrite map_length. split; auto.
    intros. now rewrite peval_pscale, H.
  Qed.

  Lemma is_poly_mul n m f g : is_poly (S n) f -> is_poly (S m) g -> is_poly (S (n + m)) (fun x => f x * g x).
  Proof.
    intros [c [L H]] [d [L' H']].
    destruct c as [|a c].
    { exists []. split; [cbn; lia|]. intros. rewrite H, !peval_nil. ring. }
    destruct d as [|b d].
    { exists []. split; [cbn; lia|]. intros. rewrite H', !peval_nil. ring. }
    exists (pmul (a :: c) (b :: d)). split.
    - pose proof (pmul_length_S (a :: c) (b :: d) ltac:(congruence) ltac:(congruence)). lia.
    - intros. now rewrite peval_pmul, H, H'.
  Qed.

  Lemma is_poly_sumn n m (f : nat -> F -> F) :
    (forall i, (i < m)%nat -> is_poly n (f i)) -> is_poly n (fun x => sumn m (fun i => f i x)).
  Proof.
    induction m as [|m IH]; intros H.
    - apply is_poly_le with (n := 0%nat); [lia|]. apply is_poly_0.
    - apply is_poly_ext with (g := fun x => sumn m (fun i => f i x) + f m x).
      + intros. apply sumn_S.
      + apply is_poly_add; auto.
  Qed.

  Lemma is_poly_peval c : is_poly (length c) (peval c).
  Proof. exists c. auto. Qed.

  Lemma is_poly_prodn m (f : nat -> F -> F) :
    (forall i, (i < m)%nat -> is_poly 2 (f i)) -> is_poly (S m) (fun x => prodn m (fun i => f i x)).
  Proof.
    induction m as [|m IH]; intros H.
    - apply is_poly_ext with (g := fun _ => 1); [reflexivity|]. apply is_poly_const.
    - apply is_poly_ext with (g := fun x => prodn m (fun i => f i x) * f m x).
      + intros. apply prodn_S.
      + replace (S (S m)) with (S (m + 1)) by lia. apply is_poly_mul; auto.
  Qed.

  (** Two polynomial functions of small degree agreeing on enough points are equal. *)
  Theorem is_poly_unique n f g points : is_poly n f -> is_poly n g -> NoDup points -> (n <= length points)%nat ->
    (forall r, In r points -> f r = g r) -> forall x, f x = g x.
  Proof.
    intros [c [L H]] [d [L' H']] ND HR HE x. apply fsub_eq0.
    transitivity (peval (padd c (pscale (- (1)) d)) x).
    - rewrite peval_padd, peval_pscale, H, H'. ring.
    - apply peval_ext_zero with (roots := points); auto.
      + rewrite padd_length. unfold pscale. rewrite map_length. lia.
      + intros r Hr. rewrite peval_padd, peval_pscale, <- H, <- H', HE by auto. ring.
  Qed.
End Poly.

Arguments peval {_} _ _.
Arguments padd {_} _ _.
Arguments pscale {_} _ _.
Arguments pmul {_} _ _.
Arguments is_poly {_} _ _.
