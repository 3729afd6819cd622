(** C74: the claims that the exponentiation phase leaves are about its operands, at points of their size. *)
Require Import Coq.Arith.Arith Coq.Lists.List Coq.Bool.Bool Coq.Sorting.Permutation Lia.
From Verif Require Import Base.Fld Base.Lists Base.Sums Math.UnivariateModel Protocol.Proto Protocol.Soundness Protocol.Safe Utils.SortModel Utils.SortProps
  Sumcheck.SumcheckModel Sumcheck.EqIndProps Gkr.GpaProps Gkr.ExpModel Gkr.ExpSpec Gkr.ExpProofs Gkr.ExpProps.
Import ListNotations.

Section Exp.
  Variable F : field.
  Variable nv : nat -> nat.
  Local Open Scope fld_scope.

  (** there is an exponent bit, and with a fixed base there are at most 64 *)
  Definition exp_sized (e : exp_spec F) : Prop :=
    xp_bits e <> [] /\ match xp_base e with BaseConst _ => (length (xp_bits e) <= 64)%nat | BaseOracle _ => True end.
  Let tab : nat -> nat -> F := fun _ _ => 0.
  Let si := spec_inst F nv tab.

  Lemma sized_belongs : forall es (point evals : list F) claims, Forall exp_sized es -> length evals = length es ->
    exp_make_claims nv es point evals = Ok claims -> exists ics, map fst ics = map si es /\ map snd ics = claims /\ Forall (belongs F) ics.
  Proof.
    intros es point evals claims OK LE H. unfold exp_make_claims, construct_exp_claims in H. destruct (existsb _ _); [discriminate|].
    apply collect_forall2 in H. revert evals claims LE H. induction OK as [|e es OKe OK IH]; intros [|v evals] claims LE H; try discriminate LE.
    - inversion H; subst. exists []. repeat split; auto.
    - cbn [map zip3] in H. inversion H as [|? c ? claims' E1 E2]; subst. injection LE as LE. destruct (IH evals claims' LE E2) as [ics [I1 [I2 I3]]].
      set (n := nv (last (xp_bits e) 0%nat)) in *. destruct (Nat.ltb_spec (length point) n) as [|LP]; [discriminate|]. injection E1 as <-.
      eexists ((si e, _) :: ics). cbn [map fst snd]. rewrite I1, I2. split; [reflexivity|]. split; [reflexivity|].
      constructor; auto. unfold belongs, si, spec_inst. cbn [ex_width ex_point ex_base xi_w xi_n xi_base]. split; [reflexivity|]. destruct OKe as [B1 B2].
      split; [destruct (xp_bits e); [contradiction|cbn; lia]|]. split; [rewrite firstn_length; fold n; lia|]. destruct (xp_base e); tauto.
  Qed.

  (** the operands of which layer [l] leaves claims *)
  Definition layer_ids (l : nat) (e : exp_spec F) : list nat :=
    if (l <? length (xp_bits e))%nat then
      match xp_base e with
      | BaseConst _ => [nth l (rev (xp_bits e)) 0%nat]
      | BaseOracle b => [nth l (xp_bits e) 0%nat; b]
      end
    else [].
  Definition exp_vars (e : exp_spec F) : nat := nv (last (xp_bits e) 0%nat).
  Definition layer_count (e : exp_spec F) : nat := match xp_base e with BaseConst _ => 1 | BaseOracle _ => 2 end.
  Definition at_operand (es : list (exp_spec F)) (c : nat * list F * F) : Prop :=
    exists e, In e es /\ (In (fst (fst c)) (xp_bits e) \/ xp_base e = BaseOracle (fst (fst c))) /\ length (snd (fst c)) = exp_vars e.

  Lemma nth_error_rev (l : list nat) k i : nth_error l (length l - 1 - k) = Some i -> (k < length l)%nat -> nth k (rev l) 0%nat = i.
  Proof. intros E H. rewrite rev_nth by auto. replace (length l - S k)%nat with (length l - 1 - k)%nat by lia. now apply nth_error_nth. Qed.

  Lemma layer_claims_shape l : forall es rclaims ecs,
    layer_eval_claims l (map (fun e => (dyn F e, xp_bits e)) es) rclaims = Ok ecs ->
    Forall2 (fun n c => length (fst c) = n) (flat_map (fun e => repeat (exp_vars e) (layer_count e)) (filter (fun e => l <? length (xp_bits e))%nat es)) rclaims ->
    map (fun c => fst (fst c)) ecs = flat_map (layer_ids l) es /\ Forall (at_operand es) ecs.
  Proof.
    induction es as [|e es IH]; intros rclaims ecs E SH; cbn [map layer_eval_claims] in E; [injection E as <-; split; [reflexivity|constructor]|].
    cbn [filter flat_map] in *. unfold layer_ids at 1.
    destruct (Nat.eqb_spec (length (xp_bits e)) 0) as [Z|NZ]; [discriminate|].
    assert (UP : forall c, at_operand es c -> at_operand (e :: es) c) by (intros c (e' & H & K); exists e'; split; [now right|exact K]).
    destruct (Nat.ltb_spec (length (xp_bits e) - 1) l) as [S|S], (Nat.ltb_spec l (length (xp_bits e))) as [A|A]; try lia.
    - destruct (IH _ _ E SH) as [I1 I2]. split; [exact I1|]. eapply Forall_impl; [|exact I2]. exact UP.
    - destruct rclaims as [|[p v] rc]; [discriminate|]. cbn [flat_map] in SH. unfold layer_count at 1 in SH. unfold dyn in E.
      destruct (xp_base e) as [g|bid] eqn:EB; cbn [repeat app] in SH.
      + destruct (nth_error (xp_bits e) (length (xp_bits e) - 1 - l)) as [id|] eqn:EN; cbn [of_opt rbind] in E; [|discriminate].
        fold (dyn F) in E. destruct (layer_eval_claims l _ rc) as [r| |] eqn:ER; cbn [rbind] in E; [|discriminate|discriminate]. injection E as <-.
        inversion SH; subst. destruct (IH _ _ ER) as [I1 I2]; [assumption|]. cbn [map fst]. split.
        * rewrite I1. cbn [app]. f_equal. symmetry. now apply nth_error_rev.
        * constructor; [|eapply Forall_impl; [|exact I2]; exact UP]. exists e. split; [now left|]. cbn [fst snd]. split; [left; now apply nth_error_In in EN|assumption].
      + destruct rc as [|[p' v'] rc]; [discriminate|].
        destruct (nth_error (xp_bits e) l) as [id|] eqn:EN; cbn [of_opt rbind] in E; [|discriminate].
        destruct (layer_eval_claims l _ rc) as [r| |] eqn:ER; cbn [rbind] in E; [|discriminate|discriminate]. injection E as <-.
        inversion SH as [|? ? ? ? S1 SH1]; subst. inversion SH1 as [|? ? ? ? S2 SH2]; subst. destruct (IH _ _ ER SH2) as [I1 I2]. cbn [map fst]. split.
        * rewrite I1. cbn [app]. f_equal. symmetry. now apply nth_error_nth.
        * constructor; [|constructor; [|eapply Forall_impl; [|exact I2]; exact UP]]; exists e; (split; [now left|]); cbn [fst snd]; (split; [|assumption]).
          -- left. now apply nth_error_In in EN.
          -- now right.
  Qed.

  (** * Sums over the layers *)
  Definition exp_cost (w : nat -> nat) (e : exp_spec F) : nat :=
    (list_sum (map w (xp_bits e)) + match xp_base e with BaseConst _ => 0 | BaseOracle b => length (xp_bits e) * w b end)%nat.

  Lemma sum_cons a l : list_sum (a :: l) = (a + list_sum l)%nat.
  Proof. reflexivity. Qed.
  Lemma sum_zero {A} (l : list A) : list_sum (map (fun _ => 0%nat) l) = 0%nat.
  Proof. induction l; auto. Qed.
  Lemma sum_nth (w : nat -> nat) (l : list nat) : forall m, (length l <= m)%nat ->
    list_sum (map (fun k => if (k <? length l)%nat then w (nth k l 0%nat) else 0%nat) (seq 0 m)) = list_sum (map w l).
  Proof.
    induction l as [|a l IH]; intros m LE; cbn [length].
    - apply (sum_zero (seq 0 m)).
    - destruct m as [|m]; [cbn in LE; lia|]. cbn [seq map]. rewrite !sum_cons. f_equal. rewrite <- (IH m) by (cbn in LE; lia).
      rewrite <- seq_shift, map_map. f_equal.
  Qed.
  Lemma sum_const (n c : nat) : forall m, (n <= m)%nat -> list_sum (map (fun k => if (k <? n)%nat then c else 0%nat) (seq 0 m)) = (n * c)%nat.
  Proof.
    induction n as [|n IH]; intros m LE.
    - apply (sum_zero (seq 0 m)).
    - destruct m as [|m]; [lia|]. cbn [seq map]. rewrite sum_cons. rewrite <- seq_shift, map_map. cbn [Nat.mul]. f_equal. rewrite <- (IH m) by lia. f_equal.
  Qed.
  Lemma sum_plus {A} (f g : A -> nat) l : list_sum (map (fun x => f x + g x)%nat l) = (list_sum (map f l) + list_sum (map g l))%nat.
  Proof. induction l as [|a l IH]; [reflexivity|]. cbn [map]. rewrite !sum_cons, IH. lia. Qed.

  Lemma exp_cost_layers (w : nat -> nat) e m : (length (xp_bits e) <= m)%nat ->
    list_sum (map (fun l => list_sum (map w (layer_ids l e))) (seq 0 m)) = exp_cost w e.
  Proof.
    intros LE. unfold exp_cost, layer_ids. destruct (xp_base e) as [g|b].
    - rewrite Nat.add_0_r. transitivity (list_sum (map w (rev (xp_bits e)))).
      + rewrite <- (sum_nth w (rev (xp_bits e)) m) by (now rewrite rev_length). f_equal. apply map_ext. intros k. rewrite rev_length.
        destruct (k <? length (xp_bits e))%nat; cbn; lia.
      + clear. induction (xp_bits e) as [|a l IH]; [reflexivity|]. cbn [rev map]. rewrite map_app, list_sum_app, IH. cbn [map]. rewrite !sum_cons. cbn. lia.
    - rewrite <- (sum_nth w (xp_bits e) m LE), <- (sum_const (length (xp_bits e)) (w b) m LE), <- sum_plus. f_equal. apply map_ext. intros k.
      destruct (k <? length (xp_bits e))%nat; cbn; lia.
  Qed.
  Lemma exp_costs (w : nat -> nat) (es : list (exp_spec F)) m : (forall e, In e es -> (length (xp_bits e) <= m)%nat) ->
    list_sum (map (fun l => list_sum (map w (flat_map (layer_ids l) es))) (seq 0 m)) = list_sum (map (exp_cost w) es).
  Proof.
    induction es as [|e es IH]; intros H; [cbn [flat_map map list_sum fold_right]; apply sum_zero|].
    cbn [map]. rewrite sum_cons, <- IH by (intros; apply H; now right). rewrite <- (exp_cost_layers w e m), <- sum_plus by (apply H; now left). f_equal. apply map_ext. intros l.
    cbn [flat_map]. now rewrite map_app, list_sum_app.
  Qed.
  Lemma sum_perm (a b : list nat) : Permutation a b -> list_sum a = list_sum b.
  Proof. induction 1; auto; try (rewrite !sum_cons; lia). congruence. Qed.

  (** * The phase *)
  Lemma shape_repeat l es cs : exp_shape F (map si es) l cs ->
    Forall2 (fun n c => length (fst c) = n) (flat_map (fun e => repeat (exp_vars e) (layer_count e)) (filter (fun e => l <? length (xp_bits e))%nat (rev es))) (rev cs).
  Proof.
    unfold exp_shape, layer_shape, alive. rewrite filter_map, filter_rev'. intros H. apply forall2_rev in H.
    rewrite <- flat_map_rev, <- map_rev, flat_map_concat_map, map_map, <- flat_map_concat_map in H.
    erewrite flat_map_ext; [exact H|]. intros e. unfold layer_count, out_tabs, si, spec_inst, exp_vars. cbn [xi_base xi_n]. destruct (xp_base e); reflexivity.
  Qed.

  Theorem exp_phase_shape (exponents : list (exp_spec F)) : Forall exp_sized exponents ->
    sound (fun ecs => Forall (at_operand exponents) ecs /\ forall w, list_sum (map w (map (fun c => fst (fst c)) ecs)) = list_sum (map (exp_cost w) exponents)) 0
      (exp_phase nv exponents).
  Proof.
    intros HS. unfold exp_phase. set (es := reorder_exponents nv exponents).
    assert (PM : Permutation es exponents) by apply sort_perm.
    assert (HE : Forall exp_sized es) by (rewrite Forall_forall in *; intros e He; apply HS; now apply (Permutation_in _ PM)).
    apply (sound_bind F (fun _ => True) _ 0 0); [apply returns_sound, returns_true|]. intros point _. apply sound_bind_read. intros evals LE.
    apply sound_bind0. intros claims EC. destruct (sized_belongs es point evals claims HE LE EC) as (ics & I1 & <- & I3).
    eapply (sound_bind F _ _ 0 0); [apply safe_sound, (exp_verify_safe F HighToLow ics I3)|]. cbn beta. rewrite I1. intros layers SH.
    destruct (exp_eval_claims es layers) as [ecs| |] eqn:E; constructor.
    unfold exp_eval_claims, exp_make_eval_claims in E.
    assert (MW : fold_right Nat.max 0%nat (map (@length nat) (map xp_bits es)) = max_width (map si es)) by (unfold max_width; rewrite !map_map; reflexivity).
    rewrite MW in E. clear MW.
    change (map (fun e : exp_spec F => match xp_base e with BaseConst _ => None | BaseOracle id => Some id end) es) with (map (dyn F) es) in E.
    rewrite (combine_map2 (dyn F) xp_bits) in E.
    destruct (collect_res _) as [ls| |] eqn:EL in E; cbn [rbind] in E; [|discriminate|discriminate]. injection E as <-.
    apply collect_forall2 in EL.
    assert (G : forall a b ls' lay pre, Forall2 (exp_shape F (map si es)) (seq a b) lay -> length pre = a ->
      Forall2 (fun l y => (try claims <- of_opt (nth_error (pre ++ lay) l); layer_eval_claims l (rev (map (fun e => (dyn F e, xp_bits e)) es)) (rev claims)) = Ok y) (seq a b) ls' ->
      Forall (at_operand (rev es)) (concat ls') /\
      forall w, list_sum (map w (map (fun c => fst (fst c)) (concat ls'))) = list_sum (map (fun l => list_sum (map w (flat_map (layer_ids l) (rev es)))) (seq a b))).
    { intros a b. revert a. induction b as [|b IH]; intros a ls' lay pre HH LP HL; inversion HH as [|? cs ? lay' S1 S2]; subst; inversion HL as [|? y ? ls2 E1 E2]; subst; [split; [constructor|reflexivity]|].
      cbn [concat seq map]. rewrite nth_error_app2, Nat.sub_diag in E1 by lia. cbn [nth_error of_opt rbind] in E1. rewrite <- map_rev in E1.
      destruct (layer_claims_shape _ _ _ _ E1 (shape_repeat _ _ _ S1)) as [K1 K2].
      destruct (IH (S (length pre)) ls2 lay' (pre ++ [cs])) as [J1 J2]; auto; [rewrite app_length; cbn; lia|rewrite <- app_assoc; exact E2|]. split.
      - apply Forall_app. auto.
      - intros w. rewrite !map_app, list_sum_app, sum_cons, K1, J2. reflexivity. }
    destruct (G 0%nat _ ls layers [] SH eq_refl EL) as [G1 G2]. split.
    - eapply Forall_impl; [|exact G1]. intros c (e & He & K). exists e. split; [|exact K]. apply (Permutation_in _ PM). now apply in_rev.
    - intros w. rewrite G2, exp_costs.
      + apply sum_perm. apply Permutation_map. etransitivity; [|exact PM]. symmetry. apply Permutation_rev.
      + intros e He. apply in_rev in He. unfold max_width. apply (fold_max_ge (map xi_w (map si es)) (length (xp_bits e))). rewrite map_map. apply in_map_iff. exists e. auto.
  Qed.
End Exp.
