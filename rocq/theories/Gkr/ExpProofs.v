(** Proofs about the exponentiation reduction. *)
Require Import Coq.setoid_ring.Ring Coq.Arith.Arith Coq.Lists.List Coq.Bool.Bool Coq.Sorting.Sorted Lia.
From Verif Require Import Base.Fld Base.Lists Base.Sums Base.Poly Math.MleSpec Math.UnivariateModel Math.UnivariateProps Protocol.Proto Protocol.Soundness
  Protocol.Safe Utils.SortModel Evalcheck.EvalMle Transparent.TransparentModel Transparent.TransparentProps
  Sumcheck.SumcheckModel Sumcheck.SumcheckSpec Sumcheck.SumcheckProofs Sumcheck.SumcheckSound
  Sumcheck.SumcheckProps Sumcheck.EqIndModel Sumcheck.EqIndProps Sumcheck.ZerocheckModel Sumcheck.ZerocheckProofs Gkr.ExpSpec Gkr.ExpModel.
Import ListNotations.

Section Proto.
  Variable F : field.

  Lemma sound_safe {A} (good P : A -> Prop) e (p : vproto F A) : sound good e p -> safe P p -> sound (fun a => good a /\ P a) e p.
  Proof.
    intros H. induction H as [e|e|e a H|e n k H IH|d e b k HB H IH]; cbn [safe]; intros R; try constructor; auto.
    apply (sound_sample F _ d e b); auto.
  Qed.
  Lemma safe_sound {A} (good : A -> Prop) e (p : vproto F A) : safe good p -> sound good e p.
  Proof.
    intros R. apply (sound_mono F good good 0); [|lia|auto]. induction p as [[a| |]|n k IH|k IH]; cbn [safe] in R; try constructor; auto.
    change 0%nat with (0 + 0)%nat. apply (sound_sample F good 0 0 (fun _ => false)); [|auto].
    apply at_most_none.
  Qed.
  Lemma safe_and {A} (P Q : A -> Prop) (p : vproto F A) : safe P p -> safe Q p -> safe (fun a => P a /\ Q a) p.
  Proof. induction p as [[a| |]|n k IH|k IH]; cbn [safe]; auto. Qed.

  (** what [batch_verify] returns *)
  Lemma batch_verify_shape (o : order) (claims : list (claim F)) : comps_total F claims ->
    safe (fun out => length (fst out) = fold_right Nat.max 0%nat (map cl_n claims) /\ map (@length F) (snd out) = map cl_m claims)
      (batch_verify o claims).
  Proof.
    intros CT. unfold batch_verify. destruct (negb _); [exact Logic.I|].
    assert (ACT : forall n pend coeffs chal sum deg, safe (fun st => b_chal st = chal) (activate (F:=F) n pend coeffs chal sum deg)).
    { intros n pend. induction pend as [|c pend IH]; intros; cbn [activate]; [reflexivity|].
      destruct (negb _); [reflexivity|]. cbn [safe]. intros x. apply IH. }
    assert (RO : forall n st, safe (fun st' => length (b_chal st') = (length (b_chal st) + n)%nat) (rounds (F:=F) n st)).
    { induction n as [|n IH]; intros st; cbn [rounds]; [cbn [safe]; lia|]. eapply safe_bind; [apply ACT|]. intros st' Est.
      cbn [vbind safe]. intros l Hl x. eapply safe_mono; [apply IH|]. cbn [b_chal]. intros st2 H. rewrite H, app_length, Est. cbn [length]. lia. }
    eapply safe_bind; [apply RO|]. cbn [b_chal length Nat.add]. intros st Lst.
    apply (safe_bind F (fun _ => True)).
    - generalize (b_coeffs st) (b_sum st). induction (b_pending st) as [|c pend IH]; intros coeffs sum; cbn [activate_rest safe]; [exact Logic.I|].
      intros x. apply IH.
    - intros [coeffs sum] _. apply (safe_bind F (fun evals => map (@length F) evals = map cl_m claims)).
      + clear CT Lst. induction claims as [|c claims IH]; cbn [read_evals]; [reflexivity|]. cbn [vbind safe]. intros l Hl.
        eapply safe_bind; [apply IH|]. intros es Hes. cbn [safe map]. now rewrite Hl, Hes.
      + intros evals Hev. apply (safe_bind F (fun _ => True)).
        * apply safe_ret; auto. clear Hev Lst. revert coeffs evals CT. clear. induction claims as [|c claims IH]; intros [|a coeffs] [|e evals] CT; cbn [expected_multi]; try discriminate.
          pose proof (expected_safe F a c e (fun cs q => CT c cs q (or_introl eq_refl))) as N1.
          destruct (expected_single a c e); cbn [rbind]; [|discriminate|congruence].
          assert (N2 : expected_multi coeffs claims evals <> Panic) by (apply IH; intros x cs q Hx; apply CT; now right).
          destruct (expected_multi coeffs claims evals); cbn [rbind]; [discriminate|discriminate|congruence].
        * intros e _. destruct (negb _); [exact Logic.I|]. cbn [safe fst snd]. split; auto. destruct o; [|rewrite rev_length]; auto.
  Qed.
End Proto.

Section Proofs.
  Variable F : field.
  Local Open Scope fld_scope.
  Add Ring Fring : (f_ring F).

  Local Notation exp_inst := (exp_inst F).
  Local Notation exp_claim := (exp_claim F).

  (* ---------------------------------------------------------------- *)
  (** the compositions *)
  Lemma static_comp_ok (g : F) : comp_ok (static_comp g).
  Proof.
    split; [|split; [|split]].
    - intros [|x [|y [|z q]]] H; cbn in *; try reflexivity. congruence.
    - intros [|x [|y [|z q]]] H; cbn in *; try discriminate. eexists. reflexivity.
    - intros [|a0 [|a1 [|z a]]] [|b0 [|b1 [|z' b]]] Ha Hb; try discriminate.
      exists [a0 * ((1 - a1) + a1 * g); a0 * (b1 * g - b1) + b0 * ((1 - a1) + a1 * g); b0 * (b1 * g - b1)].
      split; [reflexivity|]. split; [|reflexivity].
      intros t. rewrite !peval_cons, peval_nil. cbn. f_equal. ring.
    - split; [reflexivity|]. intros [|x [|y [|z q]]] [|x' [|y' [|z' q']]] Hq Hq' A; cbn in Hq, Hq'; try discriminate.
      pose proof (A 0%nat eq_refl) as E0. pose proof (A 1%nat eq_refl) as E1. cbn in E0, E1. subst. auto.
  Qed.
  Lemma dynamic_last_comp_ok : comp_ok (dynamic_last_comp (F := F)).
  Proof.
    split; [|split; [|split]].
    - intros [|x [|y [|z q]]] H; cbn in *; try reflexivity. congruence.
    - intros [|x [|y [|z q]]] H; cbn in *; try discriminate. eexists. reflexivity.
    - intros [|a0 [|a1 [|z a]]] [|b0 [|b1 [|z' b]]] Ha Hb; try discriminate.
      exists [(1 - a1) + a1 * a0; a1 * b0 + b1 * a0 - b1; b1 * b0]. split; [reflexivity|]. split; [|reflexivity].
      intros t. rewrite !peval_cons, peval_nil. cbn. f_equal. ring.
    - split; [reflexivity|]. intros [|x [|y [|z q]]] [|x' [|y' [|z' q']]] Hq Hq' A; cbn in Hq, Hq'; try discriminate.
      pose proof (A 0%nat eq_refl) as E0. pose proof (A 1%nat eq_refl) as E1. cbn in E0, E1. subst. auto.
  Qed.
  Lemma dynamic_comp_ok : comp_ok (dynamic_comp (F := F)).
  Proof.
    split; [|split; [|split]].
    - intros [|x [|y [|z [|u q]]]] H; cbn in *; try reflexivity. congruence.
    - intros [|x [|y [|z [|u q]]]] H; cbn in *; try discriminate. eexists. reflexivity.
    - intros [|a0 [|a1 [|a2 [|z a]]]] [|b0 [|b1 [|b2 [|z' b]]]] Ha Hb; try discriminate.
      exists [a0 * a0 * ((1 - a1) + a1 * a2); (a0 * b0 + a0 * b0) * ((1 - a1) + a1 * a2) + a0 * a0 * (a1 * b2 + b1 * a2 - b1);
              b0 * b0 * ((1 - a1) + a1 * a2) + (a0 * b0 + a0 * b0) * (a1 * b2 + b1 * a2 - b1) + a0 * a0 * (b1 * b2);
              b0 * b0 * (a1 * b2 + b1 * a2 - b1) + (a0 * b0 + a0 * b0) * (b1 * b2); b0 * b0 * (b1 * b2)].
      split; [reflexivity|]. split; [|reflexivity].
      intros t. rewrite !peval_cons, peval_nil. cbn. f_equal. ring.
    - split; [reflexivity|]. intros [|x [|y [|z [|u q]]]] [|x' [|y' [|z' [|u' q']]]] Hq Hq' A; cbn in Hq, Hq'; try discriminate.
      pose proof (A 0%nat eq_refl) as E0. pose proof (A 1%nat eq_refl) as E1. pose proof (A 2%nat eq_refl) as E2. cbn in E0, E1, E2. subst. auto.
  Qed.

  (* ---------------------------------------------------------------- *)
  (** the columns of the layers *)
  Definition layer_table (i : exp_inst) (l x : nat) : F :=
    match xi_base i with
    | inl g => fpow g (number (fun k => xi_bit i k x) (xi_w i - l))
    | inr t => fpow (t x) (number (fun k => xi_bit i (l + k) x) (xi_w i - l))
    end.

  Lemma layer_table_0 i x : layer_table i 0 x = power_table i x.
  Proof. unfold layer_table, power_table, base_at, exponent_at. rewrite Nat.sub_0_r. destruct (xi_base i); reflexivity. Qed.

  Lemma number_S b w : number b (S w) = (Nat.b2n (b 0%nat) + 2 * number (fun k => b (S k)) w)%nat.
  Proof. induction w as [|w IH]; [cbn; lia|]. cbn [number] in *. rewrite IH. cbn [Nat.pow]. lia. Qed.

  Lemma number_ext b c w : (forall k, (k < w)%nat -> b k = c k) -> number b w = number c w.
  Proof. induction w as [|w IH]; intros H; [reflexivity|]. cbn [number]. rewrite IH, H by (intros; auto; apply H; lia). reflexivity. Qed.

  (** multilinears of a layer *)
  Definition vtabs (i : exp_inst) (l : nat) : list (nat -> F) :=
    match xi_base i with
    | inl _ => if (xi_w i =? l + 1)%nat then [] else [layer_table i (S l); bit_table i (xi_w i - 1 - l)]
    | inr t => if (xi_w i =? l + 1)%nat then [t; bit_table i l] else [layer_table i (S l); bit_table i l; t]
    end.

  Lemma static_step i g l x : xi_base i = inl g -> (S l < xi_w i)%nat ->
    layer_table i (S l) x * ((1 - bit_table i (xi_w i - 1 - l) x) + bit_table i (xi_w i - 1 - l) x * fpow g (2 ^ (xi_w i - 1 - l))) = layer_table i l x.
  Proof.
    intros HB HL. unfold layer_table. rewrite HB. replace (xi_w i - l)%nat with (S (xi_w i - S l)) by lia. cbn [number].
    replace (xi_w i - 1 - l)%nat with (xi_w i - S l)%nat by lia. rewrite fpow_add. f_equal. unfold bit_table.
    destruct (xi_bit i (xi_w i - S l) x); cbn [Nat.b2n]; rewrite ?Nat.mul_1_r, ?Nat.mul_0_r; cbn [fpow]; ring.
  Qed.
  Lemma static_last i g l x : xi_base i = inl g -> xi_w i = (l + 1)%nat ->
    layer_table i l x = 1 + bit_table i (xi_w i - 1 - l) x * (g - 1).
  Proof.
    intros HB HL. unfold layer_table. rewrite HB, HL. replace (l + 1 - l)%nat with 1%nat by lia. replace (l + 1 - 1 - l)%nat with 0%nat by lia.
    cbn [number Nat.pow Nat.add]. unfold bit_table. destruct (xi_bit i 0 x); cbn [Nat.b2n Nat.mul Nat.add fpow]; ring.
  Qed.
  Lemma dynamic_step i t l x : xi_base i = inr t -> (S l < xi_w i)%nat ->
    layer_table i (S l) x * layer_table i (S l) x * ((1 - bit_table i l x) + bit_table i l x * t x) = layer_table i l x.
  Proof.
    intros HB HL. unfold layer_table. rewrite HB. replace (xi_w i - l)%nat with (S (xi_w i - S l)) by lia. rewrite number_S.
    rewrite (number_ext (fun k => xi_bit i (l + S k) x) (fun k => xi_bit i (S l + k) x)) by (intros; f_equal; lia).
    rewrite fpow_add. replace (2 * number (fun k => xi_bit i (S l + k) x) (xi_w i - S l))%nat
      with (number (fun k => xi_bit i (S l + k) x) (xi_w i - S l) + number (fun k => xi_bit i (S l + k) x) (xi_w i - S l))%nat by lia.
    rewrite fpow_add, Nat.add_0_r. unfold bit_table. destruct (xi_bit i l x); cbn [Nat.b2n fpow]; ring.
  Qed.
  Lemma dynamic_last i t l x : xi_base i = inr t -> xi_w i = (l + 1)%nat ->
    (1 - bit_table i l x) + bit_table i l x * t x = layer_table i l x.
  Proof.
    intros HB HL. unfold layer_table. rewrite HB, HL. replace (l + 1 - l)%nat with 1%nat by lia. cbn [number Nat.pow Nat.add]. rewrite Nat.add_0_r.
    unfold bit_table. destruct (xi_bit i l x); cbn [Nat.b2n Nat.mul Nat.add fpow]; ring.
  Qed.

  (* ---------------------------------------------------------------- *)
  (** verifiers with their instances *)
  Definition base_match (i : exp_inst) (b : option F) : Prop :=
    match xi_base i, b with inl g, Some g' => g' = g | inr _, None => True | _, _ => False end.
  Definition v_ok (l : nat) (iv : exp_inst * exp_claim) : Prop :=
    let '(i, v) := iv in
    ex_width v = xi_w i /\ (l < xi_w i)%nat /\ length (ex_point v) = xi_n i /\ base_match i (ex_base v) /\
    match xi_base i with inl _ => (xi_w i <= 64)%nat | inr _ => True end.
  Definition v_true (l : nat) (iv : exp_inst * exp_claim) : Prop := ex_eval (snd iv) = mle (layer_table (fst iv) l) (ex_point (snd iv)).

  Lemma is_last_ok l i v : v_ok l (i, v) -> is_last v l = Ok (xi_w i =? l + 1)%nat.
  Proof. intros [H1 [H2 _]]. unfold is_last. rewrite H1. destruct (Nat.ltb_spec (xi_w i) (l + 1)); [lia|]. reflexivity. Qed.

  Lemma n_multilinears_ok l i v : v_ok l (i, v) -> n_multilinears v l = Ok (length (vtabs i l)).
  Proof.
    intros H. unfold n_multilinears. rewrite (is_last_ok l i) by auto. cbn [rbind]. destruct H as [_ [_ [_ [H _]]]]. unfold base_match in H. unfold vtabs.
    destruct (xi_base i), (ex_base v); try contradiction; destruct (_ =? _)%nat; reflexivity.
  Qed.

  (** the value at a vertex of the composition of a verifier *)
  Definition good_sum (l m idx : nat) (iv : exp_inst * exp_claim) (cs : comp F * F) : Prop :=
    comp_ok (fst cs) /\ c_nv (fst cs) = m /\ (1 <= c_deg (fst cs) <= 4)%nat /\ snd cs = ex_eval (snd iv) /\
    forall (ms : list (nat -> F)) x, length ms = m -> firstn (length (vtabs (fst iv) l)) (skipn idx ms) = vtabs (fst iv) l ->
      val (c_eval (fst cs) (map (fun t => t x) ms)) = layer_table (fst iv) l x.

  Lemma nth_chunk (ms : list (nat -> F)) idx k j x d : (j < k)%nat -> (idx + k <= length ms)%nat ->
    nth (idx + j) (map (fun t => t x) ms) d = nth j (firstn k (skipn idx ms)) (fun _ => d) x.
  Proof.
    intros H L. rewrite (nth_map_lt _ _ _ _ (fun _ => d)) by lia. rewrite nth_firstn_lt by auto. apply (f_equal (fun f : nat -> F => f x)).
    rewrite <- (firstn_skipn idx ms) at 1. rewrite app_nth2 by (rewrite firstn_length; lia). rewrite firstn_length. f_equal. lia.
  Qed.

  Lemma index_comp_total m idx (c : comp F) : Forall (fun j => j < m)%nat idx -> exists c', index_comp m idx c = Ok c'.
  Proof.
    intros H. unfold index_comp. destruct (existsb _ idx) eqn:EX; [|eauto]. apply existsb_exists in EX as [j [Hj E]].
    rewrite Forall_forall in H. specialize (H j Hj). apply Nat.leb_le in E. lia.
  Qed.

  Lemma sum_claim_ok l m idx i v : v_ok l (i, v) -> (idx + length (vtabs i l) <= m)%nat ->
    (vtabs i l = [] /\ sum_claim v l m idx = Ok None) \/
    (vtabs i l <> [] /\ exists cs, sum_claim v l m idx = Ok (Some cs) /\ good_sum l m idx (i, v) cs).
  Proof.
    intros H LM. unfold sum_claim. rewrite (is_last_ok l i) by auto. cbn [rbind]. destruct H as [HW [HL [HP [HB H64]]]]. unfold base_match in HB.
    unfold vtabs in *. destruct (xi_base i) as [g|t] eqn:EB, (ex_base v) as [g'|]; try contradiction.
    - subst g'. destruct (Nat.eqb_spec (xi_w i) (l + 1)) as [E|NE]; [left; auto|]. right. split; [discriminate|]. rewrite HW.
      destruct (Nat.leb_spec 64 (xi_w i - 1 - l)); [lia|]. cbn [length] in LM.
      destruct (index_comp_total m [idx; idx + 1]%nat (static_comp (fpow g (2 ^ (xi_w i - 1 - l))))) as [c Ec]; [repeat constructor; lia|].
      rewrite Ec. cbn [rbind]. eexists. split; [reflexivity|].
      destruct (index_comp_ok F m [idx; idx + 1]%nat _ c (static_comp_ok (fpow g (2 ^ (xi_w i - 1 - l)))) eq_refl Ec) as [C1 [C2 [C3 C4]]]. unfold good_sum. cbn [fst snd].
      split; [auto|]. split; [auto|]. split; [rewrite C3; cbn; lia|]. split; [auto|]. unfold vtabs. rewrite EB.
      destruct (Nat.eqb_spec (xi_w i) (l + 1)); [contradiction|]. intros ms x Lms Hms. rewrite C4 by (rewrite map_length; auto).
      cbn [map static_comp c_eval val]. cbn [length] in Hms.
      replace (nth idx _ _) with (nth (idx + 0) (map (fun t => t x) ms) 0) by (f_equal; lia).
      rewrite !(nth_chunk ms idx 2) by lia. rewrite Hms. cbn [nth]. apply static_step; auto. lia.
    - right. destruct (Nat.eqb_spec (xi_w i) (l + 1)) as [E|NE]; (split; [discriminate|]); cbn [length] in LM.
      + destruct (index_comp_total m [idx; idx + 1]%nat dynamic_last_comp) as [c Ec]; [repeat constructor; lia|].
        rewrite Ec. cbn [rbind]. eexists. split; [reflexivity|].
        destruct (index_comp_ok F m [idx; idx + 1]%nat _ c dynamic_last_comp_ok eq_refl Ec) as [C1 [C2 [C3 C4]]]. unfold good_sum. cbn [fst snd].
        split; [auto|]. split; [auto|]. split; [rewrite C3; cbn; lia|]. split; [auto|]. unfold vtabs. rewrite EB.
        destruct (Nat.eqb_spec (xi_w i) (l + 1)); [|contradiction]. intros ms x Lms Hms. rewrite C4 by (rewrite map_length; auto).
        cbn [map dynamic_last_comp c_eval val]. cbn [length] in Hms.
        replace (nth idx _ _) with (nth (idx + 0) (map (fun t => t x) ms) 0) by (f_equal; lia).
        rewrite !(nth_chunk ms idx 2) by lia. rewrite Hms. cbn [nth]. apply dynamic_last; auto.
      + destruct (index_comp_total m [idx; idx + 1; idx + 2]%nat dynamic_comp) as [c Ec]; [repeat constructor; lia|].
        rewrite Ec. cbn [rbind]. eexists. split; [reflexivity|].
        destruct (index_comp_ok F m [idx; idx + 1; idx + 2]%nat _ c dynamic_comp_ok eq_refl Ec) as [C1 [C2 [C3 C4]]]. unfold good_sum. cbn [fst snd].
        split; [auto|]. split; [auto|]. split; [rewrite C3; cbn; lia|]. split; [auto|]. unfold vtabs. rewrite EB.
        destruct (Nat.eqb_spec (xi_w i) (l + 1)); [contradiction|]. intros ms x Lms Hms. rewrite C4 by (rewrite map_length; auto).
        cbn [map dynamic_comp c_eval val]. cbn [length] in Hms.
        replace (nth idx _ _) with (nth (idx + 0) (map (fun t => t x) ms) 0) by (f_equal; lia).
        rewrite !(nth_chunk ms idx 3) by lia. rewrite Hms. cbn [nth]. apply dynamic_step; auto. lia.
  Qed.

  Definition all_tabs (l : nat) (ivs : list (exp_inst * exp_claim)) : list (nat -> F) := flat_map (fun iv => vtabs (fst iv) l) ivs.
  Definition acting (l : nat) (iv : exp_inst * exp_claim) : Prop := vtabs (fst iv) l <> [].

  (** the composite claims of verifiers that share a point *)
  Lemma sum_claims_ok l m : forall ivs idx, Forall (v_ok l) ivs -> (idx + length (all_tabs l ivs) <= m)%nat ->
    exists sums, sum_claims l m idx (map snd ivs) = Ok sums /\ (length sums <= length ivs)%nat /\
      (forall cs, In cs sums -> comp_ok (fst cs) /\ c_nv (fst cs) = m /\ (1 <= c_deg (fst cs) <= 4)%nat) /\
      (all_tabs l ivs <> [] -> sums <> []) /\
      forall (ms : list (nat -> F)) (w : nat -> F) N, length ms = m -> firstn (length (all_tabs l ivs)) (skipn idx ms) = all_tabs l ivs ->
        ((forall cs, In cs sums -> snd cs = sumn N (fun x => val (c_eval (fst cs) (map (fun t => t x) ms)) * w x)) <->
         (forall iv, In iv ivs -> acting l iv -> ex_eval (snd iv) = sumn N (fun x => layer_table (fst iv) l x * w x))).
  Proof.
    induction ivs as [|[i v] ivs IH]; intros idx OK LM.
    - exists []. split; [reflexivity|]. split; [auto|]. split; [intros ? []|]. split; [intros H; exfalso; now apply H|]. intros. split; intros H1 ? [].
    - apply Forall_cons_iff in OK as [OKv OK]. cbn [all_tabs flat_map fst] in LM. rewrite app_length in LM. fold (all_tabs l ivs) in LM.
      destruct (IH (idx + length (vtabs i l))%nat OK ltac:(lia)) as [sums [ES [LS [PS [NE SP]]]]].
      cbn [map sum_claims snd]. rewrite (n_multilinears_ok l i v OKv).
      assert (TAIL : forall ms : list (nat -> F), length ms = m -> firstn (length (all_tabs l ((i, v) :: ivs))) (skipn idx ms) = all_tabs l ((i, v) :: ivs) ->
        firstn (length (vtabs i l)) (skipn idx ms) = vtabs i l /\
        firstn (length (all_tabs l ivs)) (skipn (idx + length (vtabs i l)) ms) = all_tabs l ivs).
      { intros ms Lms H. cbn [all_tabs flat_map fst] in H. fold (all_tabs l ivs) in H. rewrite app_length in H.
        assert (H1 : firstn (length (vtabs i l)) (firstn (length (vtabs i l) + length (all_tabs l ivs)) (skipn idx ms)) = vtabs i l).
        { rewrite H. rewrite firstn_app, Nat.sub_diag, firstn_all. cbn [firstn]. apply app_nil_r. }
        assert (H2 : skipn (length (vtabs i l)) (firstn (length (vtabs i l) + length (all_tabs l ivs)) (skipn idx ms)) = all_tabs l ivs).
        { rewrite H. rewrite skipn_app, Nat.sub_diag, skipn_all. reflexivity. }
        rewrite firstn_firstn, Nat.min_l in H1 by lia. split; auto.
        rewrite skipn_firstn_comm, skipn_add in H2. replace (length (vtabs i l) + length (all_tabs l ivs) - length (vtabs i l))%nat with (length (all_tabs l ivs)) in H2 by lia.
        exact H2. }
      destruct (sum_claim_ok l m idx i v OKv ltac:(lia)) as [[EV EC]|[EV [cs [EC GC]]]]; rewrite EC; cbn [rbind]; rewrite ES; cbn [rbind].
      + exists sums. split; [reflexivity|]. split; [cbn [length]; lia|]. split; [exact PS|]. split.
        * cbn [all_tabs flat_map fst]. rewrite EV. exact NE.
        * intros ms w N Lms Hms. destruct (TAIL ms Lms Hms) as [_ T2]. rewrite (SP ms w N Lms T2). split; intros H iv Hiv A.
          -- destruct Hiv as [<-|Hiv]; [exfalso; apply A; exact EV|]. auto.
          -- apply H; auto. now right.
      + destruct GC as [G1 [G2 [G3 [G4 G5]]]]. exists (cs :: sums). split; [reflexivity|]. split; [cbn [length]; lia|]. split; [|split; [discriminate|]].
        * intros c [<-|Hc]; [auto|]. now apply PS.
        * intros ms w N Lms Hms. destruct (TAIL ms Lms Hms) as [T1 T2].
          assert (EQ : sumn N (fun x => val (c_eval (fst cs) (map (fun t => t x) ms)) * w x) = sumn N (fun x => layer_table i l x * w x)).
          { apply sumn_ext. intros x _. now rewrite (G5 ms x Lms T1). }
          cbn [snd] in G4. split; intros H.
          -- intros iv [<-|Hiv] A.
             ++ cbn [fst snd]. rewrite <- EQ, <- G4. apply H. now left.
             ++ revert iv Hiv A. apply (SP ms w N Lms T2). intros c Hc. apply H. now right.
          -- intros c [<-|Hc].
             ++ rewrite G4, EQ. apply (H (i, v)); [now left|exact EV].
             ++ revert c Hc. apply (SP ms w N Lms T2). intros iv Hiv A. apply H; auto. now right.
  Qed.

  (** one claim for verifiers that share a point *)
  Definition claim_for (l : nat) (ivs : list (exp_inst * exp_claim)) (p : list F) (i : inst F) : Prop :=
    inst_ok i /\ cl_n (fst i) = length p /\ snd i = all_tabs l ivs /\ cl_sums (fst i) <> [] /\ (length (cl_sums (fst i)) <= length ivs)%nat /\
    (forall cs, In cs (cl_sums (fst i)) -> (1 <= c_deg (fst cs) <= 4)%nat) /\
    (eq_claim_true p i <-> forall iv, In iv ivs -> acting l iv -> v_true l iv).

  Lemma collect_multilinears l ivs : Forall (v_ok l) ivs ->
    collect_res (map (fun v => n_multilinears v l) (map snd ivs)) = Ok (map (fun iv => length (vtabs (fst iv) l)) ivs).
  Proof.
    intros H. rewrite map_map. apply collect_ok. intros [i v] Hi. rewrite Forall_forall in H. now apply n_multilinears_ok, H.
  Qed.
  Lemma all_tabs_length l ivs : length (all_tabs l ivs) = list_sum (map (fun iv => length (vtabs (fst iv) l)) ivs).
  Proof. unfold all_tabs. induction ivs as [|iv ivs IH]; cbn; [reflexivity|]. rewrite app_length. now f_equal. Qed.

  Lemma eval_point_claim_ok l ivs p : Forall (v_ok l) ivs -> (forall iv, In iv ivs -> ex_point (snd iv) = p) ->
    (all_tabs l ivs = [] /\ eval_point_claim l (map snd ivs) = Ok None) \/
    exists i, eval_point_claim l (map snd ivs) = Ok (Some (fst i)) /\ claim_for l ivs p i.
  Proof.
    intros OK HP. unfold eval_point_claim. rewrite collect_multilinears by auto. cbn [rbind]. rewrite <- all_tabs_length.
    destruct (Nat.eqb_spec (length (all_tabs l ivs)) 0) as [Z|NZ].
    - left. destruct (all_tabs l ivs); [auto|discriminate].
    - right. destruct ivs as [|[i0 v0] ivs'] eqn:EI; [cbn in NZ; lia|]. rewrite <- EI in *. cbn [map snd].
      replace (map snd ivs) with (v0 :: map snd ivs') by now rewrite EI. cbn beta iota.
      replace (v0 :: map snd ivs') with (map snd ivs) by now rewrite EI.
      destruct (sum_claims_ok l (length (all_tabs l ivs)) ivs 0 OK ltac:(lia)) as [sums [ES [LS [PS [NE SP]]]]]. rewrite ES. cbn [rbind].
      assert (P0 : ex_point v0 = p) by (apply (HP (i0, v0)); rewrite EI; now left). rewrite P0.
      set (c := mkClaim (length p) (length (all_tabs l ivs)) sums).
      assert (EC : eq_claim_new (length p) (length (all_tabs l ivs)) sums = Ok c).
      { unfold eq_claim_new, claim_new. destruct (existsb _ _) eqn:EX; [|reflexivity]. exfalso. apply existsb_exists in EX as [cs [Hcs EX]].
        destruct (PS cs Hcs) as [_ [B _]]. rewrite B, Nat.eqb_refl in EX. discriminate. }
      rewrite EC. cbn [rbind]. exists (c, all_tabs l ivs). split; [reflexivity|]. unfold claim_for. cbn [fst snd c cl_n cl_sums].
      split; [|split; [auto|split; [auto|split; [|split; [auto|split]]]]].
      + split; [reflexivity|]. cbn [fst snd c cl_sums cl_m]. intros cs Hcs. destruct (PS cs Hcs) as [A [B _]]. auto.
      + apply NE. intros Z. rewrite Z in NZ. cbn in NZ. lia.
      + intros cs Hcs. now apply PS.
      + assert (LP : lastn (length p) p = p) by (unfold lastn; now rewrite Nat.sub_diag).
        unfold eq_claim_true. cbn [fst snd c cl_sums cl_n]. rewrite LP. rewrite (SP (all_tabs l ivs) (eqw p) (2 ^ length p)%nat eq_refl) by (cbn [skipn]; apply firstn_all).
        split; intros H iv Hiv A; specialize (H iv Hiv A); unfold v_true, mle in *; rewrite ?(HP iv Hiv) in *; exact H.
  Qed.

  Lemma points_eqb_spec (a b : list F) : points_eqb a b = true <-> a = b.
  Proof.
    revert b. induction a as [|x a IH]; intros [|y b]; cbn [points_eqb].
    { split; auto. } { split; discriminate. } { split; discriminate. }
    rewrite andb_true_iff, IH. split.
    - intros [H ->]. f_equal. destruct (feqb_spec F x y); [auto|discriminate].
    - intros H. injection H as -> ->. split; auto. destruct (feqb_spec F y y); [auto|contradiction].
  Qed.

  (** verifiers grouped by points: [gs] pairs each point with a claim; the tables in order are those of the verifiers *)
  Definition grouped (l : nat) (ivs : list (exp_inst * exp_claim)) (gs : list (list F * inst F)) : Prop :=
    Forall (fun g => inst_ok (snd g) /\ cl_n (fst (snd g)) = length (fst g) /\ cl_sums (fst (snd g)) <> [] /\
                     forall cs, In cs (cl_sums (fst (snd g))) -> (1 <= c_deg (fst cs) <= 4)%nat) gs /\
    (n_composites (map snd gs) <= length ivs)%nat /\
    flat_map (fun g => map (fun t => (t, length (fst g))) (snd (snd g))) gs = flat_map (fun iv => map (fun t => (t, length (ex_point (snd iv)))) (vtabs (fst iv) l)) ivs /\
    ((forall g, In g gs -> eq_claim_true (fst g) (snd g)) <-> (forall iv, In iv ivs -> acting l iv -> v_true l iv)) /\
    (forall g, In g gs -> exists iv, In iv ivs /\ length (fst g) = xi_n (fst iv)).

  Lemma grouped_nil l : grouped l [] [].
  Proof.
    split; [constructor|]. split; [cbn; lia|]. split; [reflexivity|]. split; [split; intros _ ? []|]. intros g [].
  Qed.

  Lemma all_tabs_nil_acting l ivs : all_tabs l ivs = [] -> forall iv, In iv ivs -> vtabs (fst iv) l = [].
  Proof.
    induction ivs as [|iv0 ivs IH]; intros H iv []; cbn [all_tabs flat_map] in H; apply app_eq_nil in H as [H1 H2].
    - now subst.
    - now apply IH.
  Qed.
  Lemma flat_tabs_nil l (ivs : list (exp_inst * exp_claim)) : all_tabs l ivs = [] ->
    flat_map (fun iv => map (fun t => (t, length (ex_point (snd iv)))) (vtabs (fst iv) l)) ivs = [].
  Proof.
    induction ivs as [|iv ivs IH]; intros H; [reflexivity|]. cbn [all_tabs flat_map] in *. apply app_eq_nil in H as [H1 H2]. rewrite H1. now apply IH.
  Qed.
  Lemma flat_tabs_same l (ivs : list (exp_inst * exp_claim)) p : (forall iv, In iv ivs -> ex_point (snd iv) = p) ->
    map (fun t => (t, length p)) (all_tabs l ivs) = flat_map (fun iv => map (fun t => (t, length (ex_point (snd iv)))) (vtabs (fst iv) l)) ivs.
  Proof.
    induction ivs as [|iv ivs IH]; intros H; [reflexivity|]. cbn [all_tabs flat_map]. rewrite map_app. rewrite (H iv (or_introl eq_refl)).
    f_equal. apply IH. intros; apply H; now right.
  Qed.

  Lemma grouped_skip l ivs gs grp : grouped l ivs gs -> all_tabs l grp = [] -> grouped l (ivs ++ grp) gs.
  Proof.
    intros [G1 [G2 [G3 [G4 G5]]]] Z. split; [auto|]. split; [rewrite app_length; lia|]. split; [rewrite G3, flat_map_app, (flat_tabs_nil l grp Z); symmetry; apply app_nil_r|]. split.
    - rewrite G4. split; intros H iv Hiv A.
      + apply in_app_iff in Hiv as [Hiv|Hiv]; [auto|]. exfalso. apply A. now apply (all_tabs_nil_acting l grp).
      + apply H; auto. apply in_app_iff. auto.
    - intros g Hg. destruct (G5 g Hg) as [iv [A B]]. exists iv. split; auto. apply in_app_iff; auto.
  Qed.
  Lemma grouped_snoc l ivs gs grp p i : grouped l ivs gs -> Forall (v_ok l) grp -> (forall iv, In iv grp -> ex_point (snd iv) = p) -> claim_for l grp p i ->
    grouped l (ivs ++ grp) (gs ++ [(p, i)]).
  Proof.
    intros [G1 [G2 [G3 [G4 G5]]]] OK HP [C1 [C2 [C3 [C4 [C5 [C6 C7]]]]]].
    split; [apply Forall_app; split; auto; repeat constructor; auto; apply C1|]. split.
    { unfold n_composites in *. rewrite !map_app. cbn [map fst snd]. rewrite list_sum_app, app_length.
      change (list_sum [length (cl_sums (fst i))]) with (length (cl_sums (fst i)) + 0)%nat.
      rewrite Nat.add_0_r. exact (Nat.add_le_mono _ _ _ _ G2 C5). }
    split; [|split].
    - rewrite !flat_map_app. apply f_equal2; [exact G3|]. cbn [flat_map fst snd]. rewrite app_nil_r, C3. now apply flat_tabs_same.
    - split; intros H.
      + intros iv Hiv A. apply in_app_iff in Hiv as [Hiv|Hiv].
        * revert iv Hiv A. apply G4. intros g Hg. apply H, in_app_iff. auto.
        * revert iv Hiv A. apply C7. apply (H (p, i)), in_app_iff. right. now left.
      + intros g Hg. apply in_app_iff in Hg as [Hg|[<-|[]]].
        * revert g Hg. apply G4. intros iv Hiv A. apply H; auto. apply in_app_iff; auto.
        * cbn [fst snd]. apply C7. intros iv Hiv A. apply H; auto. apply in_app_iff; auto.
    - intros g Hg. apply in_app_iff in Hg as [Hg|[<-|[]]].
      + destruct (G5 g Hg) as [iv [A B]]. exists iv. split; auto. apply in_app_iff; auto.
      + destruct grp as [|iv grp'].
        * exfalso. apply C4. destruct (cl_sums (fst i)); [reflexivity|cbn in C5; lia].
        * exists iv. cbn [fst]. split; [apply in_app_iff; right; now left|]. rewrite <- (HP iv (or_introl eq_refl)).
          apply Forall_inv in OK. destruct iv as [i' v']. destruct OK as [_ [_ [E _]]]. exact E.
  Qed.

  Lemma group_loop_ok l : forall rest done grp gs p, rest <> [] ->
    Forall (v_ok l) (done ++ grp ++ rest) -> (forall iv, In iv grp -> ex_point (snd iv) = p) -> grouped l done gs ->
    exists gs' extra, group_loop l (map snd grp) (map snd rest) (map (fun g => fst (snd g)) gs) (map fst gs ++ [p]) =
      Ok (map (fun g => fst (snd g)) gs', map fst gs' ++ extra) /\ grouped l (done ++ grp ++ rest) gs'.
  Proof.
    induction rest as [|[i v] rest IH]; intros done grp gs p NE OK HP HG; [contradiction|]. cbn [map group_loop snd]. rewrite last_last.
    apply Forall_app in OK as [OKd OKr]. apply Forall_app in OKr as [OKg OKr]. apply Forall_cons_iff in OKr as [OKv OKr].
    assert (FIN : forall done grp gs p, Forall (v_ok l) (done ++ grp) -> ex_point v = p -> (forall iv, In iv grp -> ex_point (snd iv) = p) -> grouped l done gs ->
      exists gs' extra,
        match map snd rest with
        | [] => try c <- eval_point_claim l (map snd grp ++ [v]);
                Ok (match c with Some c => map (fun g : list F * inst F => fst (snd g)) gs ++ [c] | None => map (fun g => fst (snd g)) gs end, map fst gs ++ [p])
        | _ => group_loop l (map snd grp ++ [v]) (map snd rest) (map (fun g => fst (snd g)) gs) (map fst gs ++ [p])
        end = Ok (map (fun g => fst (snd g)) gs', map fst gs' ++ extra) /\ grouped l (done ++ grp ++ (i, v) :: rest) gs').
    { clear done grp gs p OKd OKg HP HG NE. intros done grp gs p OKg Ep HP HG. apply Forall_app in OKg as [OKd OKg].
      assert (HP' : forall iv, In iv (grp ++ [(i, v)]) -> ex_point (snd iv) = p).
      { intros iv Hiv. apply in_app_iff in Hiv as [Hiv|[<-|[]]]; auto. }
      assert (OK' : Forall (v_ok l) (grp ++ [(i, v)])) by (apply Forall_app; auto).
      replace (map snd grp ++ [v]) with (map snd (grp ++ [(i, v)])) by (rewrite map_app; reflexivity).
      replace (grp ++ (i, v) :: rest) with ((grp ++ [(i, v)]) ++ rest) by (rewrite <- app_assoc; reflexivity).
      destruct rest as [|iv' rest'].
      - cbn [map]. rewrite app_nil_r. destruct (eval_point_claim_ok l (grp ++ [(i, v)]) p OK' HP') as [[Z EC]|[i' [EC CF]]]; rewrite EC; cbn [rbind].
        + exists gs, [p]. split; [reflexivity|]. now apply grouped_skip.
        + exists (gs ++ [(p, i')]), []. rewrite !map_app, app_nil_r. cbn [map fst snd]. split; [reflexivity|]. now apply grouped_snoc.
      - assert (NE : iv' :: rest' <> []) by discriminate.
        assert (OK2 : Forall (v_ok l) (done ++ (grp ++ [(i, v)]) ++ iv' :: rest')) by (rewrite !Forall_app in *; tauto).
        exact (IH done (grp ++ [(i, v)]) gs p NE OK2 HP' HG). }
    destruct (points_eqb (ex_point v) p) eqn:PE; cbn [negb].
    - cbn [rbind]. apply FIN; auto; [rewrite Forall_app; auto|]. now apply points_eqb_spec.
    - destruct (eval_point_claim_ok l grp p OKg HP) as [[Z EC]|[i' [EC CF]]]; rewrite EC; cbn [rbind].
      + rewrite removelast_last.
        destruct (FIN (done ++ grp) [] gs (ex_point v)) as [gs' [extra [E G]]]; auto.
        * rewrite app_nil_r, Forall_app. auto.
        * intros iv [].
        * now apply grouped_skip.
        * exists gs', extra. split; [exact E|]. now rewrite app_assoc.
      + destruct (FIN (done ++ grp) [] (gs ++ [(p, i')]) (ex_point v)) as [gs' [extra [E G]]]; auto.
        * rewrite app_nil_r, Forall_app. auto.
        * intros iv [].
        * now apply grouped_snoc.
        * exists gs', extra. split; [|now rewrite app_assoc]. rewrite !map_app in E. exact E.
  Qed.

  Lemma layer_claims_ok l ivs : ivs <> [] -> Forall (v_ok l) ivs ->
    exists gs extra, layer_sumcheck_claims l (map snd ivs) = Ok (map (fun g => fst (snd g)) gs, map fst gs ++ extra) /\ grouped l ivs gs.
  Proof.
    intros NE OK. destruct ivs as [|[i v] ivs]; [contradiction|].
    apply (group_loop_ok l ((i, v) :: ivs) [] [] [] (ex_point v)); auto; [intros ? []|apply grouped_nil].
  Qed.

  (* ---------------------------------------------------------------- *)
  (** the end of a layer *)
  Lemma take_point_ok o n (chal : list F) : (n <= length chal)%nat -> take_point o n chal = Ok (suffix_point o n chal).
  Proof. intros H. unfold take_point. destruct (Nat.ltb_spec (length chal) n); [lia|]. reflexivity. Qed.
  Lemma suffix_length o n (chal : list F) : (n <= length chal)%nat -> length (suffix_point o n chal) = n.
  Proof. intros H. destruct o; cbn [suffix_point]; [rewrite skipn_length|rewrite firstn_length]; lia. Qed.

  Definition base_not_one (i : exp_inst) : Prop := match xi_base i with inl g => g <> 1 | inr _ => True end.
  Definition sized (i : exp_inst) (c : list F * F) : Prop := length (fst c) = xi_n i.

  Lemma finish_layer_ok o l i v ev chal : v_ok l (i, v) -> length ev = length (vtabs i l) -> (vtabs i l <> [] -> (xi_n i <= length chal)%nat) ->
    exists cs v', finish_layer o l v ev chal = Ok (cs, v') /\ ex_width v' = xi_w i /\ (xi_w i <> l + 1 -> v_ok (S l) (i, v'))%nat /\
      length cs = length (out_tabs i l) /\ Forall (sized i) cs /\
      (base_not_one i -> Forall2 claim_holds (out_tabs i l) cs -> ((xi_w i <> l + 1)%nat -> v_true (S l) (i, v')) ->
         ev = map (fun t => mle t (suffix_point o (xi_n i) chal)) (vtabs i l) /\ (vtabs i l = [] -> v_true l (i, v))).
  Proof.
    intros H LE HN. unfold finish_layer. rewrite (is_last_ok l i) by auto. cbn [rbind]. destruct H as [HW [HL [HP [HB H64]]]]. unfold base_match in HB.
    unfold vtabs, base_not_one, out_tabs, v_ok, base_match in *. rewrite HP. destruct (xi_base i) as [g|t] eqn:EB, (ex_base v) as [g'|] eqn:EV; try contradiction.
    - subst g'. destruct (Nat.eqb_spec (xi_w i) (l + 1)) as [E|NE].
      + exists [(ex_point v, first_layer_inverse (ex_eval v) g)], v. split; [reflexivity|]. split; [auto|]. split; [contradiction|]. split; [reflexivity|].
        split; [repeat constructor; exact HP|]. intros G1 FT _. destruct ev; [|discriminate]. split; [reflexivity|]. intros _.
        inversion FT as [|? ? ? ? C _]; subst. unfold claim_holds in C. cbn [fst snd] in C. unfold v_true. cbn [fst snd].
        rewrite (mle_ext F _ (fun x => 1 + (g - 1) * bit_table i (xi_w i - 1 - l) x)) by (intros; rewrite (static_last i g) by auto; ring).
        rewrite mle_add, mle_scale, mle_const, <- C. unfold first_layer_inverse.
        assert (NZ : g - 1 <> 0) by (intros Z; apply G1; transitivity (g - 1 + 1); [ring|rewrite Z; ring]).
        transitivity (1 + (ex_eval v - 1) * (finv (g - 1) * (g - 1))); [rewrite f_inv_l by auto; ring|ring].
      + specialize (HN ltac:(discriminate)). destruct ev as [|e0 [|e1 [|]]]; try discriminate. cbn [nth_error of_opt rbind]. rewrite take_point_ok by auto. cbn [rbind].
        eexists _, _. split; [reflexivity|]. cbn [ex_width ex_point ex_base ex_eval]. split; [auto|]. rewrite suffix_length by auto.
        split; [intros _; repeat split; auto; lia|]. split; [reflexivity|]. split; [repeat constructor; unfold sized; cbn [fst]; now apply suffix_length|].
        intros _ FT VT. inversion FT as [|? ? ? ? C _]; subst. unfold claim_holds in C. cbn [fst snd] in C. specialize (VT NE). unfold v_true in VT. cbn [fst snd ex_eval ex_point] in VT.
        split; [|discriminate]. cbn [map]. now rewrite <- C, <- VT.
    - assert (N : (xi_n i <= length chal)%nat) by (apply HN; destruct (_ =? _)%nat; discriminate). rewrite take_point_ok by auto. cbn [rbind].
      destruct (Nat.eqb_spec (xi_w i) (l + 1)) as [E|NE].
      + destruct ev as [|e0 [|e1 [|]]]; try discriminate. cbn [nth_error of_opt rbind].
        eexists _, _. split; [reflexivity|]. split; [auto|]. split; [contradiction|]. split; [reflexivity|].
        split; [repeat constructor; unfold sized; cbn [fst]; now apply suffix_length|].
        intros _ FT _. inversion FT as [|? ? ? ? C1 FT']; subst. inversion FT' as [|? ? ? ? C2 _]; subst. unfold claim_holds in C1, C2. cbn [fst snd] in C1, C2.
        split; [|discriminate]. cbn [map]. now rewrite <- C1, <- C2.
      + destruct ev as [|e0 [|e1 [|e2 [|]]]]; try discriminate. cbn [nth_error of_opt rbind].
        eexists _, _. split; [reflexivity|]. cbn [ex_width ex_point ex_base ex_eval]. split; [auto|]. rewrite suffix_length by auto.
        split; [intros _; repeat split; auto; lia|]. split; [reflexivity|]. split; [repeat constructor; unfold sized; cbn [fst]; now apply suffix_length|].
        intros _ FT VT. inversion FT as [|? ? ? ? C1 FT']; subst. inversion FT' as [|? ? ? ? C2 _]; subst. unfold claim_holds in C1, C2. cbn [fst snd] in C1, C2.
        specialize (VT NE). unfold v_true in VT. cbn [fst snd ex_eval ex_point] in VT.
        split; [|discriminate]. cbn [map]. now rewrite <- C1, <- C2, <- VT.
  Qed.

  Definition flat_values (o : order) (l : nat) (chal : list F) (ivs : list (exp_inst * exp_claim)) : list F :=
    flat_map (fun iv => map (fun t => mle t (suffix_point o (xi_n (fst iv)) chal)) (vtabs (fst iv) l)) ivs.
  Definition layer_shape (l : nat) (is : list exp_inst) (cs : list (list F * F)) : Prop :=
    Forall2 (fun n c => length (fst c) = n) (flat_map (fun i => map (fun _ => xi_n i) (out_tabs i l)) is) cs.

  Lemma sized_shape i cs (m : list (nat -> F)) : length cs = length m -> Forall (sized i) cs -> Forall2 (fun n (c : list F * F) => length (fst c) = n) (map (fun _ => xi_n i) m) cs.
  Proof. revert cs. induction m as [|t m IH]; intros [|c cs] L H; try discriminate; cbn [map]; constructor; inversion H; subst; auto. Qed.

  Lemma forall2_app_inv {A B} (P : A -> B -> Prop) a1 a2 b1 b2 : length a1 = length b1 -> Forall2 P (a1 ++ a2) (b1 ++ b2) -> Forall2 P a1 b1 /\ Forall2 P a2 b2.
  Proof.
    revert b1. induction a1 as [|a a1 IH]; intros [|b b1] L H; try discriminate; cbn [app] in H; [split; [constructor|auto]|].
    inversion H; subst. destruct (IH b1) as [X Y]; auto.
  Qed.

  Lemma finish_layers_ok o l chal : forall ivs ev, Forall (v_ok l) ivs -> length ev = length (all_tabs l ivs) ->
    (forall iv, In iv ivs -> acting l iv -> (xi_n (fst iv) <= length chal)%nat) ->
    exists cs ivs', finish_layers o l (map snd ivs) ev chal = Ok (cs, map snd ivs') /\ map fst ivs' = map fst ivs /\
      (forall iv, In iv ivs' -> ex_width (snd iv) = xi_w (fst iv) /\ (l < xi_w (fst iv))%nat /\ ((xi_w (fst iv) <> l + 1)%nat -> v_ok (S l) iv)) /\
      layer_shape l (map fst ivs) cs /\
      (Forall base_not_one (map fst ivs) -> Forall2 claim_holds (flat_map (fun i => out_tabs i l) (map fst ivs)) cs ->
       (forall iv, In iv ivs' -> (xi_w (fst iv) <> l + 1)%nat -> v_true (S l) iv) ->
         ev = flat_values o l chal ivs /\ forall iv, In iv ivs -> ~ acting l iv -> v_true l iv).
  Proof.
    induction ivs as [|[i v] ivs IH]; intros ev OK LE HN.
    - exists [], []. cbn [map finish_layers]. split; [reflexivity|]. split; [reflexivity|]. split; [intros ? []|]. split; [constructor|].
      intros _ _ _. destruct ev; [|discriminate]. split; [reflexivity|]. intros ? [].
    - apply Forall_cons_iff in OK as [OKv OK]. cbn [all_tabs flat_map fst] in LE. rewrite app_length in LE. fold (all_tabs l ivs) in LE.
      destruct (finish_layer_ok o l i v (firstn (length (vtabs i l)) ev) chal OKv) as [cs1 [v' [E1 [W1 [V1 [L1 [S1 T1]]]]]]].
      { rewrite firstn_length. lia. }
      { intros A. apply (HN (i, v)); [now left|exact A]. }
      destruct (IH (skipn (length (vtabs i l)) ev) OK) as [cs2 [ivs2 [E2 [M2 [V2 [S2 T2]]]]]].
      { rewrite skipn_length. lia. }
      { intros iv Hiv. apply HN. now right. }
      exists (cs1 ++ cs2), ((i, v') :: ivs2). cbn [map finish_layers snd]. rewrite (n_multilinears_ok l i v OKv). cbn [rbind]. rewrite E1. cbn [rbind].
      rewrite E2. cbn [rbind fst snd]. split; [reflexivity|]. split; [now rewrite M2|]. split; [|split].
      + intros iv [<-|Hiv]; [|auto]. cbn [fst snd]. split; [auto|]. split; [apply OKv|auto].
      + unfold layer_shape. cbn [flat_map fst]. apply Forall2_app; [now apply sized_shape|exact S2].
      + intros NO FT VT. apply Forall_cons_iff in NO as [N1 NO]. cbn [map flat_map fst] in FT. apply forall2_app_inv in FT as [FT1 FT2]; [|now rewrite L1].
        destruct (T1 N1 FT1 (VT (i, v') (or_introl eq_refl))) as [Q1 Q2].
        destruct (T2 NO FT2 (fun iv Hiv => VT iv (or_intror Hiv))) as [Q3 Q4].
        split.
        * rewrite <- (firstn_skipn (length (vtabs i l)) ev). unfold flat_values. cbn [flat_map fst]. rewrite Q1, Q3. reflexivity.
        * intros iv [<-|Hiv] A; [|auto]. apply Q2. unfold acting in A. cbn [fst] in *. destruct (vtabs i l); [reflexivity|]. exfalso. apply A. discriminate.
  Qed.

  Lemma retain_ok l : forall ivs : list (exp_inst * exp_claim), (forall iv, In iv ivs -> ex_width (snd iv) = xi_w (fst iv) /\ (l < xi_w (fst iv))%nat) ->
    retain_verifiers l (map snd ivs) = Ok (map snd (filter (fun iv => negb (xi_w (fst iv) =? l + 1)%nat) ivs)).
  Proof.
    induction ivs as [|[i v] ivs IH]; intros H; [reflexivity|]. cbn [map retain_verifiers snd filter fst].
    destruct (H (i, v) (or_introl eq_refl)) as [W L]. cbn [fst snd] in W, L. unfold is_last. rewrite W. destruct (Nat.ltb_spec (xi_w i) (l + 1)); [lia|].
    cbn [rbind]. rewrite IH by (intros; apply H; now right). cbn [rbind]. destruct (xi_w i =? l + 1)%nat; reflexivity.
  Qed.

  (* ---------------------------------------------------------------- *)
  (** the check of the equality indicators *)
  Definition g_values (o : order) (chal : list F) (g : list F * inst F) : list F :=
    map (fun t => mle t (suffix_point o (length (fst g)) chal)) (snd (snd g)).

  Lemma check_eq_ok o (chal : list F) : forall gs evals extra,
    Forall (fun g => cl_n (fst (snd g)) = length (fst g) /\ (length (fst g) <= length chal)%nat) gs ->
    map (@length F) evals = map (fun g : list F * inst F => S (length (snd (snd g)))) gs ->
    check_eq_evals o chal evals (map fst gs ++ extra) = Err \/
    (check_eq_evals o chal evals (map fst gs ++ extra) = Ok (map (@removelast F) evals) /\
     (map (@removelast F) evals = map (g_values o chal) gs ->
      evals = map (fun g => mvals (reduced (fst g) (snd g)) (suffix_point o (length (fst g)) chal)) gs)).
  Proof.
    induction gs as [|[p i] gs IH]; intros [|e evals] extra H LE; try discriminate LE.
    - right. split; [destruct extra; reflexivity|reflexivity].
    - apply Forall_cons_iff in H as [[N1 N2] H]. cbn [fst snd] in N1, N2. cbn [map] in LE. injection LE as L1 LE. cbn [snd] in L1.
      cbn [map app check_eq_evals fst]. rewrite take_point_ok by auto. cbn [rbind].
      destruct (eq_ind_correct F p) as [_ EQ]. rewrite EQ, suffix_length, Nat.eqb_refl by auto. cbn [rbind].
      destruct e as [|e0 e'] eqn:EE; [discriminate|]. rewrite <- EE in *.
      destruct (feqb_spec F (mle (eqw p) (suffix_point o (length p) chal)) (last e 0)) as [E|]; cbn [negb]; [|left; reflexivity].
      destruct (IH evals extra H LE) as [X|[X Y]]; rewrite X; cbn [rbind]; [left; reflexivity|]. right. split; [reflexivity|].
      intros M. injection M as M1 M2. f_equal; [|auto]. cbn [fst snd]. unfold mvals, reduced. cbn [snd]. rewrite map_app. cbn [map].
      unfold lastn. rewrite N1, Nat.sub_diag. cbn [skipn]. rewrite E.
      transitivity (removelast e ++ [last e 0]); [apply app_removelast_last; rewrite EE; discriminate|]. f_equal. exact M1.
  Qed.

  Lemma concat_inj {A} (a b : list (list A)) : map (@length A) a = map (@length A) b -> concat a = concat b -> a = b.
  Proof.
    revert b. induction a as [|x a IH]; intros [|y b] L H; try discriminate; auto. cbn [map concat] in *. injection L as L1 L2.
    assert (x = y /\ concat a = concat b) as [-> HC].
    { clear - L1 H. revert y L1 H. induction x as [|u x IH]; intros [|w y] L H; try discriminate; [auto|]. cbn [app] in H. injection H as -> H.
      destruct (IH y) as [-> ->]; auto. }
    f_equal. now apply IH.
  Qed.
End Proofs.
