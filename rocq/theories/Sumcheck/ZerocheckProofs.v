(** Lemmas for the zerocheck verifier. *)
Require Import Coq.setoid_ring.Ring Coq.Arith.Arith Coq.Lists.List Coq.Bool.Bool Coq.Sorting.Sorted Lia.
From Verif Require Import Base.Fld Base.Lists Base.Sums Base.Poly Base.NatBits Math.MleSpec Math.MleModel Math.MleProps Math.UnivariateModel Math.UnivariateProps
  Ntt.NttSpec Ntt.SubspaceTheory Ntt.SubspaceModel Ntt.SubspaceProps Protocol.Proto Protocol.Soundness
  Sumcheck.SumcheckModel Sumcheck.SumcheckSpec Sumcheck.SumcheckProofs Sumcheck.SumcheckSound
  Sumcheck.SumcheckProps Sumcheck.EqIndModel Sumcheck.EqIndProps Sumcheck.ZerocheckModel.
Import ListNotations.

Section Proofs.
  Variable F : field.
  Local Open Scope fld_scope.
  Add Ring Fring : (f_ring F).

  Lemma bivariate_product_ok : comp_ok (bivariate_product (F := F)).
  Proof. exact (product2_ok F). Qed.

  Lemma aline_nth (a b : list F) t i : length a = length b -> (i < length a)%nat -> nth i (aline a b t) 0 = nth i a 0 + t * nth i b 0.
  Proof.
    intros L H. unfold aline. rewrite (nth_map_lt _ _ _ _ (0, 0)) by (rewrite combine_length; lia).
    rewrite combine_nth by auto. reflexivity.
  Qed.

  Lemma index_comp_ok n idx (c : comp F) c' : comp_ok c -> length idx = c_nv c -> index_comp n idx c = Ok c' ->
    comp_ok c' /\ c_nv c' = n /\ c_deg c' = c_deg c /\
    forall q, length q = n -> c_eval c' q = c_eval c (map (fun i => nth i q 0) idx).
  Proof.
    intros [H1 [H2 [H3 [H4 H5]]]] LI H. unfold index_comp in H.
    destruct (existsb _ idx) eqn:EX; [discriminate|]. injection H as <-.
    assert (LT : forall i, In i idx -> (i < n)%nat).
    { intros i Hi. destruct (Nat.lt_ge_cases i n) as [|G]; auto. exfalso.
      assert (X : existsb (fun i => n <=? i)%nat idx = true) by (apply existsb_exists; exists i; split; auto; now apply Nat.leb_le). congruence. }
    split; [|split; [reflexivity|split; [reflexivity|]]].
    2:{ intros q Hq. cbn [c_eval]. now rewrite Hq, Nat.eqb_refl. }
    unfold comp_ok. cbn [c_nv c_deg c_eval c_lead c_used]. split; [|split; [|split; [|split]]].
    - intros q Hq. now rewrite (proj2 (Nat.eqb_neq _ _)).
    - intros q Hq. rewrite Hq, Nat.eqb_refl. cbn [negb]. apply H2. now rewrite map_length.
    - intros a b La Lb. destruct (H3 (map (fun i => nth i a 0) idx) (map (fun i => nth i b 0) idx)) as [C [LC [EC LD]]]; [now rewrite map_length..|].
      exists C. split; auto. split.
      + intros t. assert (LA : length (aline a b t) = n) by (unfold aline; rewrite map_length, combine_length; lia).
        rewrite LA, Nat.eqb_refl. cbn [negb]. rewrite <- EC. f_equal.
        apply nth_ext with (d := 0) (d' := 0).
        { unfold aline. rewrite !map_length, combine_length, !map_length. lia. }
        intros j Hj. rewrite map_length in Hj. rewrite aline_nth by (rewrite !map_length; auto).
        rewrite !(nth_map_lt _ _ _ _ 0%nat) by auto. rewrite aline_nth; auto; [congruence|]. rewrite La. apply LT, nth_In; auto.
      + rewrite Lb, Nat.eqb_refl. cbn [negb]. exact LD.
    - now rewrite map_length, seq_length.
    - intros q q' L L' A. rewrite L, L', Nat.eqb_refl. cbn [negb]. apply H5; [now rewrite map_length..|].
      intros j Hj. assert (HL : (j < c_nv c)%nat) by (destruct (le_lt_dec (c_nv c) j); auto; rewrite nth_overflow in Hj by lia; discriminate).
      rewrite !(nth_map_lt _ _ _ _ 0%nat) by lia. apply A.
      assert (HN : (nth j idx 0 < n)%nat) by (apply LT, nth_In; lia).
      rewrite nth_map_seq by auto. apply existsb_exists. exists (nth j idx 0%nat, nth j (c_used c) false). split.
      + rewrite <- combine_nth by congruence. apply nth_In. rewrite combine_length. lia.
      + cbn [fst snd Nat.add]. rewrite Nat.eqb_refl. exact Hj.
  Qed.

  (* ---------------------------------------------------------------- *)
  (** the points of the univariate round *)
  Lemma omap_app {A B} (f : A -> option B) l l' : omap f (l ++ l') = (do x <- omap f l; do y <- omap f l'; Some (x ++ y)).
  Proof.
    induction l as [|a l IH]; cbn [app omap obind]; [now destruct (omap f l')|]. rewrite IH.
    destruct (f a); cbn [obind]; auto. destruct (omap f l); cbn [obind]; auto. now destruct (omap f l').
  Qed.

  Lemma omap_length {A B} (f : A -> option B) l r : omap f l = Some r -> length r = length l.
  Proof.
    revert r. induction l as [|a l IH]; intros r H; cbn [omap obind] in H; [now injection H as <-|].
    destruct (f a); [|discriminate]. destruct (omap f l); [|discriminate]. injection H as <-. cbn. now rewrite (IH l0).
  Qed.

  Lemma with_dim_length bc d (b : list F) : sub_with_dim bc d = Ok b -> length b = d.
  Proof.
    unfold sub_with_dim. destruct (omap bc (seq 0 d)) as [x|] eqn:E; [|discriminate]. intros H. injection H as <-.
    apply omap_length in E. now rewrite seq_length in E.
  Qed.

  Lemma with_dim_prefix bc k d (bk bd : list F) : (k <= d)%nat -> sub_with_dim bc k = Ok bk -> sub_with_dim bc d = Ok bd -> bk = firstn k bd.
  Proof.
    intros L Hk Hd. pose proof (with_dim_length _ _ _ Hk) as Lk. unfold sub_with_dim in *.
    replace d with (k + (d - k))%nat in Hd by lia. rewrite seq_app, omap_app in Hd.
    destruct (omap bc (seq 0 k)) as [x|]; [|discriminate]. injection Hk as ->. cbn [obind] in Hd.
    destruct (omap bc (seq (0 + k) (d - k))) as [y|]; [|discriminate]. cbn [obind] in Hd. injection Hd as <-.
    rewrite firstn_app, Lk, Nat.sub_diag, firstn_O, app_nil_r. now rewrite firstn_all2 by lia.
  Qed.

  Variable CH : char2 F.

  Lemma iter_nth (b : list F) i : (length b <= usize_bits)%nat -> (i < 2 ^ length b)%nat -> nth i (sub_iter b) 0 = elem b i.
  Proof.
    intros L Hi. pose proof (subspace_iter_spec F b i) as H. rewrite Nat.min_l in H by auto.
    rewrite (proj2 (Nat.ltb_lt _ _) Hi) in H. rewrite (nth_error_nth _ _ 0 H). apply subspace_get_spec.
    eapply Nat.lt_le_trans; [exact Hi|]. now apply Nat.pow_le_mono_r.
  Qed.

  Lemma elem_prefix (b : list F) k i : (k <= length b)%nat -> (i < 2 ^ k)%nat -> elem b i = elem (firstn k b) i.
  Proof.
    intros L Hi. unfold elem. rewrite firstn_length, Nat.min_l by auto.
    replace (length b) with (k + (length b - k))%nat by lia. rewrite sumn_split.
    rewrite (sumn_ext F k _ (fun j => if Nat.testbit i j then nth j (firstn k b) 0 else 0)) by (intros j Hj; now rewrite nth_firstn_lt).
    rewrite (sumn_zero F (length b - k)); [ring|]. intros j Hj.
    replace (Nat.testbit i (k + j)) with false; [reflexivity|]. symmetry.
    destruct (Nat.eq_dec i 0) as [->|N0]; [apply Nat.bits_0|]. apply Nat.bits_above_log2.
    apply Nat.log2_lt_pow2; [lia|]. eapply Nat.lt_le_trans; [exact Hi|]. apply Nat.pow_le_mono_r; lia.
  Qed.

  Lemma points_prefix bc k d (bk bd : list F) : (forall e b, sub_with_dim bc e = Ok b -> lin_indep b) -> (k <= d)%nat -> (d <= usize_bits)%nat ->
    sub_with_dim bc k = Ok bk -> sub_with_dim bc d = Ok bd ->
    firstn (2 ^ k) (sub_iter bd) = sub_iter bk.
  Proof.
    intros LI L LU Hk Hd. pose proof (with_dim_length _ _ _ Hk) as Lk. pose proof (with_dim_length _ _ _ Hd) as Ld.
    destruct (subspace_iter_nodup F CH bk (LI _ _ Hk)) as [_ LK]; [lia|].
    destruct (subspace_iter_nodup F CH bd (LI _ _ Hd)) as [_ LD]; [lia|].
    rewrite Lk in LK. rewrite Ld in LD. pose proof (Nat.pow_le_mono_r 2 k d ltac:(lia) L) as PL.
    apply nth_ext with (d := 0) (d' := 0); [rewrite firstn_length, LD, LK; lia|].
    intros i Hi. rewrite firstn_length, LD in Hi. rewrite nth_firstn_lt by lia. rewrite !iter_nth by (try rewrite Ld; try rewrite Lk; lia).
    rewrite (with_dim_prefix bc k d bk bd L Hk Hd). apply elem_prefix; lia.
  Qed.

  (* ---------------------------------------------------------------- *)
  (** drawing the point of the equality indicator *)
  Lemma linear_at_most (a b : F) : (a <> 0 \/ b <> 0) -> at_most 1 (fun c => feqb ((1 - c) * a + c * b) 0).
  Proof.
    intros H. assert (A : at_most 1 (fun c => feqb (peval [a; b - a] c) 0)).
    { apply roots_at_most; [cbn; lia|]. destruct (feq_dec F a 0) as [->|N]; [|exists 0%nat; exact N].
      exists 1%nat. cbn. intros E. destruct H as [H|H]; [congruence|]. apply H. rewrite <- E. ring. }
    intros l ND HR. apply (A l ND). intros x Hx. rewrite <- (HR x Hx). f_equal. rewrite !peval_cons, peval_nil. ring.
  Qed.

  Lemma sample_point_sound {B} (good : B -> Prop) e : forall N n (v : nat -> F) k, (n <= N)%nat ->
    (exists y, (y < 2 ^ n)%nat /\ v y <> 0) ->
    (forall r, length r = N -> mle v (lastn n r) <> 0 -> sound good e (k r)) ->
    sound good (N + e) (vbind (vsamples N) k).
  Proof.
    induction N as [|N IH]; intros n v k L [y [Hy NZ]] HK.
    - cbn [vsamples vbind]. apply HK; [reflexivity|]. replace n with 0%nat in * by lia. cbn in Hy. replace y with 0%nat in NZ by lia.
      change (lastn 0 []) with (@nil F). now rewrite mle_nil.
    - cbn [vsamples]. destruct (Nat.eq_dec n (S N)) as [->|NE].
      + change (S N + e)%nat with (1 + (N + e))%nat.
        apply (sound_sample F good 1 (N + e) (fun c => feqb ((1 - c) * v (2 * (y / 2))%nat + c * v (2 * (y / 2) + 1)%nat) 0)).
        { apply linear_at_most. rewrite (odd_div y) in NZ. destruct (Nat.odd y); [now right|]. rewrite Nat.add_0_r in NZ. now left. }
        intros c Hc. apply sound_assoc. cbn [vbind].
        apply (IH N (fun x => (1 - c) * v (2 * x)%nat + c * v (2 * x + 1)%nat) (fun r => k (c :: r))); [lia| |].
        * exists (y / 2)%nat. split; [now apply div2_lt_pow|]. intros E. rewrite E, feqb_refl in Hc. discriminate.
        * intros r Hr NZ'. apply HK; [cbn; lia|]. unfold lastn in *. cbn [length]. rewrite Hr, Nat.sub_diag in *. cbn [skipn] in *.
          rewrite mle_cons. exact NZ'.
      + change (S N + e)%nat with (1 + (N + e))%nat.
        apply (sound_sample F good 1 (N + e) (fun _ => false)).
        { intros l _ H. destruct l as [|x l]; [cbn; lia|]. specialize (H x (or_introl eq_refl)). discriminate. }
        intros c _. apply sound_assoc. cbn [vbind]. apply (IH n v (fun r => k (c :: r))); [lia|eauto|].
        intros r Hr NZ'. apply HK; [cbn; lia|]. unfold lastn in *. cbn [length]. replace (S (length r) - n)%nat with (S (length r - n)) by lia.
        exact NZ'.
  Qed.
End Proofs.
