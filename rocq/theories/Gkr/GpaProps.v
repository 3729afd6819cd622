(** C41: the grand product reduction. *)
Require Import Coq.setoid_ring.Ring Coq.Arith.Arith Coq.Lists.List Coq.Bool.Bool Coq.NArith.NArith Coq.Sorting.Sorted Coq.Sorting.Permutation Lia.
From Verif Require Import Base.Fld Base.Lists Base.Sums Base.Poly Math.MleSpec Math.UnivariateModel Math.UnivariateProps Protocol.Proto Protocol.Soundness
  Utils.SortModel Utils.SortProps Field.TowerModel Field.Examples
  Sumcheck.SumcheckModel Sumcheck.SumcheckSpec Sumcheck.SumcheckProofs Sumcheck.SumcheckSound
  Sumcheck.SumcheckProps Sumcheck.EqIndModel Sumcheck.EqIndProps Sumcheck.ZerocheckModel Sumcheck.ZerocheckProofs Gkr.GpaModel.
Import ListNotations.
Local Close Scope N_scope.

Section Witness.
  Variable F : field.
  Local Open Scope fld_scope.
  Add Ring Fring : (f_ring F).

  (** The values of a layer: absent ones are one. *)
  Definition layer_value (layer : list F) (x : nat) : F := nth x layer 1.

  Lemma pow_pos2 n : (1 <= 2 ^ n)%nat.
  Proof. pose proof (Nat.pow_nonzero 2 n ltac:(lia)). lia. Qed.

  Lemma nth_combine_mul (a b : list F) x : (x < length a)%nat -> (x < length b)%nat ->
    nth x (map (fun p => fst p * snd p) (combine a b)) 1 = nth x a 1 * nth x b 1.
  Proof.
    revert b x. induction a as [|u a IH]; intros [|v b] [|x] Ha Hb; cbn in *; try lia; auto. apply IH; lia.
  Qed.

  Lemma next_layer_spec lw l k (prev : list F) : length prev = (k * 2 ^ lw)%nat -> (k <= 2 ^ (S l - lw))%nat ->
    exists k', length (next_layer lw l prev) = (k' * 2 ^ lw)%nat /\ (k' <= 2 ^ (l - lw))%nat /\
      forall x, (x < 2 ^ l)%nat -> layer_value (next_layer lw l prev) x = layer_value prev x * layer_value prev (x + 2 ^ l).
  Proof.
    intros L K. unfold next_layer, layer_value. destruct (Nat.leb_spec lw l) as [H|H].
    - set (half := (2 ^ (l - lw) * 2 ^ lw)%nat). assert (EH : half = (2 ^ l)%nat) by (unfold half; rewrite <- Nat.pow_add_r; f_equal; lia).
      assert (LP : (length prev <= 2 * half)%nat).
      { rewrite L. unfold half. replace (S l - lw)%nat with (S (l - lw)) in K by lia. cbn [Nat.pow] in K. nia. }
      set (pivot := (length prev - half)%nat).
      set (A := map (fun p => fst p * snd p) (combine (firstn half prev) (skipn half prev))).
      assert (LA : length A = pivot) by (unfold A; rewrite map_length, combine_length, firstn_length, skipn_length; unfold pivot; lia).
      exists (Nat.min k (2 ^ (l - lw))). split; [|split; [lia|]].
      + rewrite app_length, LA, firstn_length, skipn_length. unfold pivot. rewrite <- Nat.mul_min_distr_r, <- L. fold half. lia.
      + intros x Hx. rewrite <- EH in *. destruct (Nat.lt_ge_cases x pivot) as [P|P].
        * rewrite app_nth1 by lia. unfold A. rewrite nth_combine_mul by (rewrite ?firstn_length, ?skipn_length; unfold pivot in P; lia).
          rewrite nth_firstn_lt by auto. rewrite nth_skipn'. now rewrite (Nat.add_comm half).
        * rewrite app_nth2 by lia. rewrite LA. rewrite (nth_overflow prev (n := x + half)) by (unfold pivot in P; lia).
          destruct (Nat.lt_ge_cases x (length prev)) as [Q|Q].
          -- rewrite nth_firstn_lt by (unfold pivot in *; lia). rewrite nth_skipn'. replace (pivot + (x - pivot))%nat with x by lia. ring.
          -- rewrite (nth_overflow prev) by lia. rewrite nth_overflow; [ring|]. rewrite firstn_length, skipn_length. unfold pivot in *. lia.
    - assert (K1 : (k <= 1)%nat) by (replace (S l - lw)%nat with 0%nat in K by lia; exact K).
      destruct prev as [|a prev'] eqn:EP.
      + exists 0%nat. split; [reflexivity|]. split; [lia|]. intros x Hx. rewrite !nth_overflow by (cbn; lia). ring.
      + rewrite <- EP in *. assert (K0 : k = 1%nat) by (destruct k as [|[|]]; [subst prev; discriminate L|auto|lia]). subst k.
        assert (P2 : (2 ^ S l <= 2 ^ lw)%nat) by (apply Nat.pow_le_mono_r; lia). cbn [Nat.pow] in P2.
        exists 1%nat. split; [|split; [apply pow_pos2|]].
        * rewrite app_length, map_length, seq_length, repeat_length. lia.
        * intros x Hx. rewrite app_nth1 by (rewrite map_length, seq_length; auto).
          rewrite (nth_map_lt _ _ _ _ 0%nat) by (rewrite seq_length; auto). rewrite seq_nth by auto. cbn [Nat.add].
          f_equal; apply nth_indep; lia.
  Qed.

  Lemma build_layers_spec lw : forall n k (input : list F), length input = (k * 2 ^ lw)%nat -> (k <= 2 ^ (n - lw))%nat ->
    let layers := build_layers lw n input in
    length layers = S n /\ nth 0 layers [] = input /\
    (forall j x, (j < n)%nat -> (x < 2 ^ (n - S j))%nat ->
       layer_value (nth (S j) layers []) x = layer_value (nth j layers []) x * layer_value (nth j layers []) (x + 2 ^ (n - S j))) /\
    (forall j, (j <= n)%nat -> exists kj, length (nth j layers []) = (kj * 2 ^ lw)%nat /\ (kj <= 2 ^ (n - j - lw))%nat).
  Proof.
    induction n as [|n IH]; intros k input L K; cbn [build_layers].
    - split; [reflexivity|]. split; [reflexivity|]. split; [intros; lia|]. intros j Hj. replace j with 0%nat by lia. exists k. cbn [nth]. split; auto.
    - destruct (next_layer_spec lw n k input L K) as [k' [L' [K' V]]]. destruct (IH k' _ L' K') as [A [B [C D]]].
      split; [cbn [length]; now rewrite A|]. split; [reflexivity|]. split.
      + intros [|j] x Hj Hx; cbn [nth].
        * rewrite B. replace (S n - 1)%nat with n in * by lia. now apply V.
        * change (nth j (input :: build_layers lw n (next_layer lw n input)) []) with (nth j (input :: build_layers lw n (next_layer lw n input)) []).
          replace (S n - S (S j))%nat with (n - S j)%nat in * by lia. apply C; lia.
      + intros [|j] Hj; cbn [nth]; [exists k; now rewrite Nat.sub_0_r|]. replace (S n - S j)%nat with (n - j)%nat by lia. apply D. lia.
  Qed.

  Lemma prodn_halves n (f : nat -> F) : prodn (2 ^ S n) f = prodn (2 ^ n) (fun x => f x * f (x + 2 ^ n)%nat).
  Proof.
    replace (2 ^ S n)%nat with (2 ^ n + 2 ^ n)%nat by (cbn; lia). rewrite prodn_split, prodn_mul. f_equal. apply prodn_ext. intros i _. f_equal. lia.
  Qed.

  (** A witness from [k] packed elements: it is refused exactly if there are too many; otherwise there are [n + 1] layers,
      the first is the input, each value of a layer is the product of two values of the one before, and the evaluation is
      the product of all [2^n] inputs, absent ones being one. *)
  Theorem gp_witness_spec lw n k (input : list F) : length input = (k * 2 ^ lw)%nat ->
    if (k <=? 2 ^ (n - lw))%nat then
      exists layers, gp_witness_new lw n input = Ok layers /\ gp_n_vars layers = n /\ length layers = S n /\ nth 0 layers [] = input /\
        (forall j x, (j < n)%nat -> (x < 2 ^ (n - S j))%nat ->
           layer_value (nth (S j) layers []) x = layer_value (nth j layers []) x * layer_value (nth j layers []) (x + 2 ^ (n - S j))) /\
        grand_product_evaluation layers = prodn (2 ^ n) (layer_value input)
    else gp_witness_new lw n input = Err.
  Proof.
    intros L. unfold gp_witness_new. rewrite L, Nat.div_mul by (pose proof (pow_pos2 lw); lia).
    destruct (Nat.leb_spec k (2 ^ (n - lw))) as [K|K].
    - rewrite (proj2 (Nat.ltb_ge _ _)) by auto. destruct (build_layers_spec lw n k input L K) as [A [B [C D]]].
      set (layers := build_layers lw n input) in *. exists layers. unfold gp_n_vars. rewrite A. repeat (split; [solve [auto; lia]|]).
      assert (P : forall j, (j <= n)%nat -> prodn (2 ^ n) (layer_value input) = prodn (2 ^ (n - j)) (layer_value (nth j layers []))).
      { induction j as [|j IH]; intros Hj; [now rewrite Nat.sub_0_r, B|]. rewrite IH by lia.
        replace (n - j)%nat with (S (n - S j)) by lia. rewrite prodn_halves. apply prodn_ext. intros x Hx. symmetry. apply C; auto; lia. }
      rewrite (P n) by lia. rewrite Nat.sub_diag. cbn [Nat.pow]. rewrite prodn_S, prodn_0.
      unfold grand_product_evaluation, layer_value. replace (last layers []) with (nth n layers []).
      + destruct (nth n layers []); cbn [nth]; ring.
      + assert (NE : layers <> []) by (intros E; rewrite E in A; discriminate). rewrite (app_removelast_last [] NE) at 1.
        pose proof (app_removelast_last [] NE) as E. apply (f_equal (@length (list F))) in E. rewrite app_length, A in E. cbn [length] in E.
        rewrite app_nth2 by lia. replace (n - length (removelast layers))%nat with 0%nat by lia. reflexivity.
    - rewrite (proj2 (Nat.ltb_lt _ _)) by auto. reflexivity.
  Qed.
End Witness.

(** A grand product claim and the multilinear it is about. *)
Notation gp_inst F := ((nat * F) * (nat -> F))%type.

Section Spec.
  Variable F : field.
  Local Open Scope fld_scope.

  Definition gp_true (g : gp_inst F) : Prop := snd (fst g) = prodn (2 ^ fst (fst g)) (snd g).

  (** A final claim says the value of the multilinear at a point with one coordinate for each variable. *)
  Definition final_shape (g : gp_inst F) (c : (list F * F)) : Prop := length (fst c) = fst (fst g).
  Definition final_true (g : gp_inst F) (c : (list F * F)) : Prop := final_shape g c /\ snd c = mle (snd g) (fst c).
End Spec.
Arguments gp_true {_} _.
Arguments final_shape {_} _ _.
Arguments final_true {_} _ _.

Section Verifier.
  Variable F : field.
  Local Open Scope fld_scope.
  Add Ring Fring2 : (f_ring F).

  (** the values [d] layers above the inputs *)
  Fixpoint up (n : nat) (v : nat -> F) (d : nat) : nat -> F :=
    match d with
    | O => v
    | S d' => fun x => up n v d' x * up n v d' (x + 2 ^ (n - S d'))%nat
    end.
  Definition ltab (g : gp_inst F) (l : nat) : nat -> F := up (fst (fst g)) (snd g) (fst (fst g) - l).

  Lemma ltab_step g l x : (l < fst (fst g))%nat -> ltab g l x = ltab g (S l) x * ltab g (S l) (x + 2 ^ l)%nat.
  Proof.
    intros H. destruct g as [[n p] v]. unfold ltab. cbn [fst snd] in *. remember (n - S l)%nat as d eqn:Ed.
    assert (E : (n - l)%nat = S d) by lia. rewrite E. cbn [up].
    replace (n - S d)%nat with l by lia. reflexivity.
  Qed.
  Lemma ltab_bottom g : ltab g (fst (fst g)) = snd g.
  Proof. unfold ltab. now rewrite Nat.sub_diag. Qed.

  Lemma ltab_top g : ltab g 0 0 = prodn (2 ^ fst (fst g)) (snd g).
  Proof.
    assert (H : forall l, (l <= fst (fst g))%nat -> prodn (2 ^ l) (ltab g l) = ltab g 0 0).
    { induction l as [|l IH]; intros Hl; [cbn [Nat.pow]; rewrite prodn_S, prodn_0; ring|]. rewrite <- IH by lia. rewrite prodn_halves.
      apply prodn_ext. intros x _. symmetry. apply ltab_step. lia. }
    rewrite <- (H (fst (fst g))) by lia. now rewrite ltab_bottom.
  Qed.

  Lemma up_low (v w : nat -> F) n d : (forall x, v x = w x) -> forall x, up n v d x = up n w d x.
  Proof. intros H. induction d as [|d IH]; intros x; cbn [up]; auto. now rewrite !IH. Qed.

  (* ---------------------------------------------------------------- *)
  Lemma feqb_list_eq (a b : list F) : feqb_list a b = true <-> a = b.
  Proof.
    revert b. induction a as [|x a IH]; intros [|y b]; cbn [feqb_list]; try (split; congruence).
    rewrite andb_true_iff, IH. split; [intros [H1 ->]; destruct (feqb_spec F x y); [congruence|discriminate]|].
    intros H. injection H as -> ->. split; auto. apply feqb_refl.
  Qed.

  Lemma layer_sums_ok (claims : list (list F * F)) : let m := length claims in
    exists sums, layer_sums claims = Ok sums /\ length sums = m /\ eq_claim_new (length (fst (hd ([], 0) claims))) (2 * m) sums = Ok (mkClaim (length (fst (hd ([], 0) claims))) (2 * m) sums) /\
      forall i, (i < m)%nat -> let cs := nth i sums (bivariate_product, 0) in
        snd cs = snd (nth i claims ([], 0)) /\ comp_ok (fst cs) /\ c_nv (fst cs) = (2 * m)%nat /\ c_deg (fst cs) = 2%nat /\
        forall q, length q = (2 * m)%nat -> c_eval (fst cs) q = Ok (nth (2 * i) q 0 * nth (2 * i + 1) q 0).
  Proof.
    cbv zeta. unfold layer_sums. set (m := length claims).
    set (ic := fun i => match index_comp (2 * m) [2 * i; 2 * i + 1]%nat bivariate_product with Ok c => c | _ => bivariate_product (F := F) end).
    assert (IC : forall i, (i < m)%nat -> index_comp (2 * m) [2 * i; 2 * i + 1]%nat bivariate_product = Ok (ic i)).
    { intros i Hi. unfold ic. assert (X : exists c, index_comp (F := F) (2 * m) [2 * i; 2 * i + 1]%nat bivariate_product = Ok c).
      { unfold index_comp. destruct (existsb _ _) eqn:EX; [|eauto]. exfalso. apply existsb_exists in EX as [j [Hj EX]]. apply Nat.leb_le in EX.
        destruct Hj as [<-|[<-|[]]]; lia. }
      destruct X as [c ->]. reflexivity. }
    set (sums := map (fun ie => (ic (fst ie), snd (snd ie))) (combine (seq 0 m) claims)).
    assert (LS : length sums = m) by (unfold sums; rewrite map_length, combine_length, seq_length; fold m; lia).
    exists sums.
    rewrite (collect_res_ok _ sums).
    2:{ unfold sums. rewrite map_map. apply map_ext_in. intros ie Hie. apply In_nth with (d := (0%nat, ([], 0))) in Hie. destruct Hie as [j [Hj <-]].
        rewrite combine_length, seq_length in Hj. fold m in Hj. rewrite combine_nth by (rewrite seq_length; reflexivity). cbn [fst snd].
        rewrite seq_nth by lia. cbn [Nat.add]. rewrite IC by lia. reflexivity. }
    assert (P : forall i, (i < m)%nat -> let cs := nth i sums (bivariate_product, 0) in
        snd cs = snd (nth i claims ([], 0)) /\ comp_ok (fst cs) /\ c_nv (fst cs) = (2 * m)%nat /\ c_deg (fst cs) = 2%nat /\
        forall q, length q = (2 * m)%nat -> c_eval (fst cs) q = Ok (nth (2 * i) q 0 * nth (2 * i + 1) q 0)).
    { intros i Hi. cbv zeta. unfold sums. rewrite (nth_map_lt _ _ _ _ (0%nat, ([], 0))) by (rewrite combine_length, seq_length; fold m; lia).
      rewrite combine_nth by (rewrite seq_length; reflexivity). rewrite seq_nth by lia. cbn [fst snd Nat.add].
      destruct (index_comp_ok F (2 * m) [2 * i; 2 * i + 1]%nat bivariate_product _ (bivariate_product_ok F) eq_refl (IC _ Hi)) as [A [B [C D]]].
      repeat (split; [solve [auto]|]). intros q Hq. rewrite D by auto. reflexivity. }
    split; [reflexivity|]. split; [exact LS|]. split; [|exact P].
    unfold eq_claim_new, claim_new. destruct (existsb _ _) eqn:EX; [|reflexivity]. exfalso. apply existsb_exists in EX as [cs [Hcs EX]].
    apply In_nth with (d := (bivariate_product, 0)) in Hcs. destruct Hcs as [i [Hi <-]]. rewrite LS in Hi.
    destruct (P i Hi) as [_ [_ [B _]]]. rewrite B, Nat.eqb_refl in EX. discriminate.
  Qed.

  (** the multilinears of a layer *)
  Definition halves (l : nat) (gis : list (gp_inst F)) : list (nat -> F) :=
    flat_map (fun g => [ltab g (S l); fun x => ltab g (S l) (x + 2 ^ l)%nat]) gis.

  Lemma halves_length l gis : length (halves l gis) = (2 * length gis)%nat.
  Proof. unfold halves. induction gis as [|g gis IH]; cbn [flat_map length app]; lia. Qed.

  Lemma halves_nth l (gis : list (gp_inst F)) i g0 : (i < length gis)%nat ->
    nth (2 * i) (halves l gis) (fun _ => 0) = ltab (nth i gis g0) (S l) /\
    nth (2 * i + 1) (halves l gis) (fun _ => 0) = (fun x => ltab (nth i gis g0) (S l) (x + 2 ^ l)%nat).
  Proof.
    revert i. induction gis as [|g gis IH]; intros i Hi; cbn [length] in Hi; [lia|]. unfold halves. cbn [flat_map app].
    destruct i as [|i]; [split; reflexivity|]. destruct (IH i ltac:(lia)) as [A B]. unfold halves in *.
    replace (2 * S i)%nat with (S (S (2 * i))) by lia. cbn [nth Nat.add]. split; auto.
  Qed.

  Lemma pairs_spec (l : list F) m : length l = (2 * m)%nat -> length (pairs l) = m /\
    forall i, (i < m)%nat -> nth i (pairs l) (0, 0) = (nth (2 * i) l 0, nth (2 * i + 1) l 0).
  Proof.
    revert l. induction m as [|m IH]; intros l L.
    - destruct l; [|cbn in L; lia]. split; [reflexivity|intros; lia].
    - destruct l as [|a [|b l]]; cbn in L; try lia. destruct (IH l ltac:(lia)) as [A B]. cbn [pairs length]. split; [lia|].
      intros [|i] Hi; [reflexivity|]. replace (2 * S i)%nat with (S (S (2 * i))) by lia. cbn [nth Nat.add]. apply B. lia.
  Qed.

  Lemma ltab_line g l q c : length q = l ->
    mle (ltab g (S l)) (q ++ [c]) = (1 - c) * mle (ltab g (S l)) q + c * mle (fun x => ltab g (S l) (x + 2 ^ l)%nat) q.
  Proof.
    intros L. rewrite mle_app_high, <- mle_lin. apply mle_ext. intros x _. rewrite mle_cons, mle_nil, L.
    f_equal; f_equal; f_equal; lia.
  Qed.

  (** layer claims that are right *)
  Definition right_at (l : nat) (g : gp_inst F) (c : (list F * F)) : Prop := snd c = mle (ltab g l) (fst c).

  Definition layer_inst (l : nat) (gis : list (gp_inst F)) (sums : list (comp F * F)) : inst F :=
    (mkClaim l (2 * length gis) sums, halves l gis).

  Lemma eqind_shape o s (claims : list (claim F)) r : (forall c, In c claims -> (cl_n c <= length r)%nat) ->
    returns (fun out => length (fst out) = length r /\ map (@length F) (snd out) = map (@cl_m F) claims) (eqind_verify o s claims r).
  Proof.
    intros HN. unfold eqind_verify. apply (returns_bind F (fun _ => True)); [apply returns_true|]. intros reg _.
    apply (returns_bind F (fun _ => True)); [apply returns_true|]. intros v _.
    apply (returns_bind F (fun _ => True)); [apply returns_true|]. intros out0 _.
    set (oo := match o with HighToLow => _ | LowToHigh => _ end). destruct oo as [chal evals]. clear out0.
    destruct (verify_outputs s claims r (chal, evals)) as [out| |] eqn:EV; cbn [returns]; auto.
    pose proof (verify_outputs_len F _ _ _ _ _ _ EV) as LC. apply verify_outputs_spec in EV; [|intros; rewrite LC; auto].
    destruct EV as [_ [LE [_ [FA ->]]]]. cbn [fst snd]. split; auto. rewrite map_map.
    clear - FA LE. revert claims FA LE. induction evals as [|e es IH]; intros [|c cs] FA LE; cbn in LE; try lia; cbn [map combine] in *; auto.
    f_equal; [|apply IH; [now apply Forall_inv_tail in FA|lia]].
    apply Forall_inv in FA as [FA _]. cbn [snd fst] in FA. destruct e as [|a e]; [cbn in FA; lia|].
    pose proof (app_removelast_last 0 (l := a :: e) ltac:(discriminate)) as E. apply (f_equal (@length F)) in E. rewrite app_length, FA in E. cbn [length] in E. lia.
  Qed.

  Lemma sound_returns {A} (good P : A -> Prop) e (p : vproto F A) : sound good e p -> returns P p -> sound (fun a => good a /\ P a) e p.
  Proof.
    intros H. induction H as [e|e|e a H|e n k H IH|d e b k HB H IH]; cbn [returns]; intros R; try constructor; auto.
    apply (sound_sample F _ d e b); auto.
  Qed.
  Lemma returns_sound {A} (good : A -> Prop) e (p : vproto F A) : returns good p -> sound good e p.
  Proof.
    intros R. apply (sound_mono F good good 0); [|lia|auto]. induction p as [[a| |]|n k IH|k IH]; cbn [returns] in R; try constructor; auto.
    change 0%nat with (0 + 0)%nat. apply (sound_sample F good 0 0 (fun _ => false)); [|auto].
    intros l _ H. destruct l as [|a l]; [cbn; lia|discriminate (H a (or_introl eq_refl))].
  Qed.

  Lemma reduce_layer_eq o (claims : list (list F * F)) c0 rest : claims = c0 :: rest ->
    reduce_layer o claims =
      if negb (forallb (fun c => feqb_list (fst c) (fst c0)) claims) then VRet Err
      else
        get sums <- VRet (layer_sums claims);
        get eqc <- VRet (eq_claim_new (length (fst c0)) (2 * length claims) sums);
        get out <- eqind_verify o DescendingVars [eqc] (fst c0);
        get c <- vsample;
        match snd out with
        | [] => VRet Panic
        | evals :: _ => VRet (Ok (map (fun p => (fst out ++ [c], extrapolate_line (fst p) (snd p) c)) (pairs evals)))
        end.
  Proof. intros ->. reflexivity. Qed.

  Lemma reduce_layer_shape o l (claims : list (list F * F)) : Forall (fun c => length (fst c) = l) claims ->
    returns (fun next => length next = length claims /\ Forall (fun c => length (fst c) = S l) next) (reduce_layer o claims).
  Proof.
    intros H. destruct claims as [|c0 claims'] eqn:EC; [split; [reflexivity|constructor]|]. rewrite <- EC in *. rewrite (reduce_layer_eq o claims c0 claims' EC).
    assert (L0 : length (fst c0) = l) by (rewrite Forall_forall in H; apply H; rewrite EC; now left).
    match goal with |- context [negb ?b] => destruct b end; cbn [negb]; [|exact I].
    destruct (layer_sums_ok claims) as [sums [ES [LS [EN PS]]]]. rewrite ES. cbn [vbind].
    replace (length (fst (hd ([], 0) claims))) with l in EN by (rewrite EC; auto). rewrite L0, EN. cbn [vbind].
    eapply returns_bind; [apply eqind_shape; intros c [<-|[]]; cbn [cl_n]; lia|]. intros [chal evs] [LC LE]. cbn [fst snd] in *.
    cbn [vbind returns]. intros c. destruct evs as [|ev evs]; cbn [map] in LE; [discriminate|]. injection LE as LE _. cbn [cl_m] in LE.
    destruct (pairs_spec ev (length claims) LE) as [LP _]. cbn [returns]. rewrite map_length. split; auto.
    rewrite Forall_map. apply Forall_forall. intros p _. cbn [fst]. rewrite app_length. cbn. lia.
  Qed.

  Lemma reduce_layer_sound o l (gis : list (gp_inst F)) (claims : list (list F * F)) :
    length claims = length gis -> Forall (fun g => l < fst (fst g))%nat gis -> Forall (fun c => length (fst c) = l) claims ->
    (exists g c, In (g, c) (combine gis claims) /\ ~ right_at l g c) ->
    sound (fun next => exists g c, In (g, c) (combine gis next) /\ ~ right_at (S l) g c)
      (length gis + l * 3 + 1) (reduce_layer o claims).
  Proof.
    intros LG HG HL [g [c [Hgc BAD]]]. destruct claims as [|c0 claims'] eqn:EC; [rewrite combine_nil in Hgc; destruct Hgc|]. rewrite <- EC in *. rewrite (reduce_layer_eq o claims c0 claims' EC).
    assert (L0 : length (fst c0) = l) by (rewrite Forall_forall in HL; apply HL; rewrite EC; now left).
    match goal with |- context [negb ?b] => destruct b eqn:FB end; cbn [negb]; [|constructor].
    assert (PT : forall c, In c claims -> fst c = fst c0).
    { intros d Hd. rewrite forallb_forall in FB. now apply feqb_list_eq, FB. }
    destruct (layer_sums_ok claims) as [sums [ES [LS [EN PS]]]]. rewrite ES. cbn [vbind].
    replace (length (fst (hd ([], 0) claims))) with l in EN by (rewrite EC; auto). rewrite L0, EN. cbn [vbind].
    rewrite LG. set (m := length gis) in *. set (i0 := layer_inst l gis sums).
    assert (EI : [mkClaim l (2 * m) sums] = map fst [i0]) by reflexivity. rewrite EI. rewrite LG in *.
    assert (IOK : inst_ok i0).
    { split; [apply halves_length|]. intros cs Hcs. cbn [i0 layer_inst fst cl_sums] in Hcs. apply In_nth with (d := (bivariate_product, 0)) in Hcs.
      destruct Hcs as [i [Hi <-]]. rewrite LS in Hi. destruct (PS i Hi) as [_ [A [B _]]]. auto. }
    apply In_nth with (d := (g, c)) in Hgc. destruct Hgc as [j [Hj Ej]]. rewrite combine_length in Hj. fold m in Hj. rewrite combine_nth in Ej by auto.
    injection Ej as Eg Ecj. assert (Hjm : (j < m)%nat) by lia.
    assert (NEQ : ~ eq_claim_true (fst c0) i0).
    { intros T. apply BAD. specialize (T (nth j sums (bivariate_product, 0))). cbn [i0 layer_inst fst snd cl_sums cl_n] in T.
      destruct (PS j Hjm) as [SJ [_ [_ [_ EV]]]]. rewrite SJ in T. unfold right_at.
      rewrite (nth_indep claims c ([], 0)) in Ecj by lia. rewrite <- Ecj at 1.
      rewrite T by (apply nth_In; lia). rewrite (PT c) by (rewrite <- Ecj; apply nth_In; lia). unfold mle. rewrite L0. apply sumn_ext. intros x _.
      replace (lastn l (fst c0)) with (fst c0) by (unfold lastn; now rewrite L0, Nat.sub_diag).
      f_equal. rewrite EV by (rewrite map_length; apply halves_length). cbn [val].
      rewrite !(nth_map_lt _ _ _ _ (fun _ => 0)) by (rewrite halves_length; fold m; lia).
      destruct (halves_nth l gis j g Hjm) as [-> ->]. rewrite Eg. symmetry. apply ltab_step. rewrite Forall_forall in HG. apply HG. rewrite <- Eg. apply nth_In. auto. }
    assert (S1 : sound (fun out => ~ truthful_last [i0] out) (m + l * 3) (eqind_verify o DescendingVars (map fst [i0]) (fst c0))).
    { eapply sound_mono; [apply eqind_sound| |auto].
      - constructor; [exact IOK|constructor].
      - intros i [<-|[]]. cbn [i0 layer_inst fst cl_sums]. intros E. rewrite E in LS. cbn in LS. lia.
      - intros i [<-|[]]. cbn [i0 layer_inst fst cl_n]. lia.
      - unfold order_ok. destruct o; auto. intros i [<-|[]]. cbn [i0 layer_inst fst cl_n]. lia.
      - exists i0. split; [left; reflexivity|exact NEQ].
      - apply Nat.add_le_mono; [unfold n_composites, list_sum; cbn [map fold_right i0 layer_inst fst cl_sums]; lia|].
        apply Nat.mul_le_mono; [unfold max_vars; cbn [map fold_right i0 layer_inst fst cl_n]; lia|].
        unfold max_degree. cbn [map fold_right]. rewrite Nat.max_0_r. unfold max_individual_degree. cbn [reduced fst reduced_claim cl_sums i0 layer_inst].
        rewrite map_map. cbn [fst extra_product c_deg].
        assert (H : forall cs, In cs sums -> (c_deg (fst cs) <= 2)%nat).
        { intros cs Hcs. apply In_nth with (d := (bivariate_product, 0)) in Hcs. destruct Hcs as [i [Hi <-]]. rewrite LS in Hi. destruct (PS i Hi) as [_ [_ [_ [-> _]]]]. lia. }
        clear - H. induction sums as [|a sums IH]; cbn [map fold_right]; [lia|]. pose proof (H a (or_introl eq_refl)).
        assert (fold_right Nat.max 0%nat (map (fun x : comp F * F => (c_deg (fst x) + 1)%nat) sums) <= 3)%nat by (apply IH; intros; apply H; now right). lia. }
    pose proof (sound_returns _ _ _ _ S1 (eqind_shape o DescendingVars (map fst [i0]) (fst c0)
      ltac:(intros cc [<-|[]]; cbn [i0 layer_inst fst cl_n]; lia))) as S2.
    eapply sound_bind; [exact S2|]. intros [chal evs] [NT [LC LE]]. cbn [fst snd map i0 layer_inst cl_m] in *.
    destruct evs as [|ev [|]]; cbn [map] in LE; try discriminate. injection LE as LE. fold m in LE.
    destruct (pairs_spec ev m LE) as [LP NP].
    assert (EX : exists i, (i < m)%nat /\ (nth (2 * i) ev 0 - mle (ltab (nth i gis g) (S l)) chal <> 0 \/
        nth (2 * i + 1) ev 0 - mle (fun x => ltab (nth i gis g) (S l) (x + 2 ^ l)%nat) chal <> 0)).
    { assert (DEC : forall M, (M <= m)%nat -> (exists i, (i < M)%nat /\ (nth (2 * i) ev 0 - mle (ltab (nth i gis g) (S l)) chal <> 0 \/
        nth (2 * i + 1) ev 0 - mle (fun x => ltab (nth i gis g) (S l) (x + 2 ^ l)%nat) chal <> 0)) \/
        forall i, (i < M)%nat -> nth (2 * i) ev 0 = mle (ltab (nth i gis g) (S l)) chal /\
          nth (2 * i + 1) ev 0 = mle (fun x => ltab (nth i gis g) (S l) (x + 2 ^ l)%nat) chal).
      { induction M as [|M IH]; intros HM; [right; intros; lia|]. destruct IH as [[i [Hi H]]|H]; [lia|left; exists i; split; auto|].
        destruct (feq_dec F (nth (2 * M) ev 0 - mle (ltab (nth M gis g) (S l)) chal) 0) as [E1|N1]; [|left; exists M; auto].
        destruct (feq_dec F (nth (2 * M + 1) ev 0 - mle (fun x => ltab (nth M gis g) (S l) (x + 2 ^ l)%nat) chal) 0) as [E2|N2]; [|left; exists M; auto].
        right. intros i Hi. destruct (Nat.eq_dec i M) as [->|]; [|apply H; lia]. split; now apply fsub_eq0. }
      destruct (DEC m (Nat.le_refl _)) as [|ALL]; auto. exfalso. apply NT. unfold truthful_last. cbn [fst snd map]. f_equal.
      unfold mvals. cbn [fst snd i0 layer_inst cl_n]. rewrite L0 in LC. replace (lastn l chal) with chal by (unfold lastn; now rewrite LC, Nat.sub_diag).
      apply nth_ext with (d := 0) (d' := 0); [rewrite map_length, halves_length; exact LE|]. intros k Hk. rewrite LE in Hk.
      rewrite (nth_map_lt _ _ _ _ (fun _ => 0)) by (rewrite halves_length; exact Hk).
      assert (HK : (k / 2 < m)%nat) by (apply Nat.div_lt_upper_bound; lia).
      destruct (halves_nth l gis (k / 2) g HK) as [H0 H1]. destruct (ALL (k / 2)%nat HK) as [A0 A1].
      pose proof (Nat.div_mod k 2 ltac:(lia)) as DM. pose proof (Nat.mod_upper_bound k 2 ltac:(lia)) as MB.
      destruct (k mod 2)%nat as [|[|]] eqn:EM; [| |lia].
      - rewrite Nat.add_0_r in DM. rewrite DM. now rewrite H0, A0.
      - rewrite DM. now rewrite H1, A1. }
    destruct EX as [i [Hi NZ]].
    rewrite <- (Nat.add_0_r 1).
    apply (sound_bind_sample F _ 1 0 (fun x => feqb ((1 - x) * (nth (2 * i) ev 0 - mle (ltab (nth i gis g) (S l)) chal) +
       x * (nth (2 * i + 1) ev 0 - mle (fun x => ltab (nth i gis g) (S l) (x + 2 ^ l)%nat) chal)) 0)).
    { now apply linear_at_most. }
    intros x Hx. constructor. apply (feqb_false F) in Hx.
    exists (nth i gis g), (chal ++ [x], extrapolate_line (nth (2 * i) ev 0) (nth (2 * i + 1) ev 0) x). split.
    - assert (IN : In (nth i (combine gis (map (fun p => (chal ++ [x], extrapolate_line (fst p) (snd p) x)) (pairs ev))) (g, ([], 0)))
        (combine gis (map (fun p => (chal ++ [x], extrapolate_line (fst p) (snd p) x)) (pairs ev)))).
      { apply nth_In. rewrite combine_length, map_length. fold m. lia. }
      rewrite combine_nth in IN by (rewrite map_length; fold m; lia).
      rewrite (nth_map_lt _ _ _ _ (0, 0)) in IN by lia. rewrite NP in IN by auto. exact IN.
    - unfold right_at. cbn [fst snd]. rewrite (ltab_line _ l) by lia. intros E. apply Hx. unfold extrapolate_line in E.
      transitivity (nth (2 * i) ev 0 + (nth (2 * i + 1) ev 0 - nth (2 * i) ev 0) * x -
        ((1 - x) * mle (ltab (nth i gis g) (S l)) chal + x * mle (fun x => ltab (nth i gis g) (S l) (x + 2 ^ l)%nat) chal)); [ring|].
      rewrite E. ring.
  Qed.

  (* ---------------------------------------------------------------- *)
  (** finished claims *)
  Lemma pop_finished_spec l : forall (rg : list (gp_inst F)) (rl fin : list (list F * F)), length rl = length rg ->
    StronglySorted le (map (fun g : gp_inst F => fst (fst g)) rg) -> Forall (fun g : gp_inst F => l <= fst (fst g))%nat rg ->
    exists fg ag fl al, rg = fg ++ ag /\ rl = fl ++ al /\ length fg = length fl /\ length ag = length al /\
      Forall (fun g : gp_inst F => fst (fst g) = l) fg /\ Forall (fun g : gp_inst F => l < fst (fst g))%nat ag /\
      pop_finished l (map fst rg) rl fin = Ok (map fst ag, al, fin ++ fl).
  Proof.
    induction rg as [|g rg IH]; intros rl fin L S HG.
    - destruct rl; [|discriminate]. exists [], [], [], []. cbn [pop_finished map app]. rewrite app_nil_r. repeat (split; [solve [auto]|]). reflexivity.
    - destruct rl as [|c rl]; [discriminate|]. cbn [map] in S. apply StronglySorted_inv in S as [S FA]. apply Forall_cons_iff in HG as [H1 HG].
      cbn [pop_finished map]. destruct (Nat.eqb_spec (fst (fst g)) l) as [E|NE]; cbn [negb].
      + destruct (IH rl (fin ++ [c])) as [fg [ag [fl [al [E1 [E2 [L1 [L2 [F1 [F2 EP]]]]]]]]]]; auto.
        exists (g :: fg), ag, (c :: fl), al. cbn [app length]. rewrite EP, <- app_assoc, E1, E2. repeat (split; [solve [auto]|]). reflexivity.
      + exists [], (g :: rg), [], (c :: rl). cbn [app length map]. rewrite app_nil_r.
        split; [reflexivity|]. split; [reflexivity|]. split; [reflexivity|]. split; [auto|]. split; [constructor|]. split; [|reflexivity].
        constructor; [lia|]. rewrite Forall_map in FA. eapply Forall_impl; [|exact FA]. intros x Hx. cbn beta in *. lia.
  Qed.

  Lemma ss_rev l : StronglySorted ge l -> StronglySorted le (rev l).
  Proof.
    induction l as [|a l IH]; intros S; [constructor|]. apply StronglySorted_inv in S as [S FA]. cbn [rev].
    specialize (IH S). assert (H : Forall (fun x => x <= a)%nat (rev l)) by (apply Forall_rev; eapply Forall_impl; [|exact FA]; unfold ge; auto).
    clear - IH H. induction (rev l) as [|b m IHm]; cbn [app]; [repeat constructor|]. apply StronglySorted_inv in IH as [S FA]. apply Forall_cons_iff in H as [H1 H2].
    constructor; [auto|]. apply Forall_app. split; auto.
  Qed.

  Lemma process_finished_spec l (gis : list (gp_inst F)) (layers fin : list (list F * F)) : length layers = length gis ->
    StronglySorted ge (map (fun g : gp_inst F => fst (fst g)) gis) -> Forall (fun g : gp_inst F => l <= fst (fst g))%nat gis ->
    exists ag fg al fl, gis = ag ++ fg /\ layers = al ++ fl /\ length fg = length fl /\ length ag = length al /\
      Forall (fun g : gp_inst F => fst (fst g) = l) fg /\ Forall (fun g : gp_inst F => l < fst (fst g))%nat ag /\
      process_finished l layers (map fst gis) fin = Ok (map fst ag, al, fin ++ rev fl).
  Proof.
    intros L S HG. destruct (pop_finished_spec l (rev gis) (rev layers) fin) as [fg [ag [fl [al [E1 [E2 [L1 [L2 [F1 [F2 EP]]]]]]]]]].
    - now rewrite !rev_length.
    - rewrite map_rev. now apply ss_rev.
    - now apply Forall_rev.
    - exists (rev ag), (rev fg), (rev al), (rev fl). rewrite !rev_length.
      split; [rewrite <- rev_app_distr, <- E1, rev_involutive; reflexivity|].
      split; [rewrite <- rev_app_distr, <- E2, rev_involutive; reflexivity|].
      repeat (split; [solve [auto using Forall_rev]|]). unfold process_finished. rewrite <- map_rev, EP. cbn [rbind].
      now rewrite rev_involutive, map_rev.
  Qed.

  Lemma ss_app_l l1 l2 : StronglySorted ge (l1 ++ l2) -> StronglySorted ge l1.
  Proof.
    induction l1 as [|a l IH]; intros S; [constructor|]. cbn [app] in S. apply StronglySorted_inv in S as [S FA].
    constructor; auto. now apply Forall_app in FA as [FA _].
  Qed.


  Lemma returns_mono {A} (P Q : A -> Prop) (p : vproto F A) : (forall a, P a -> Q a) -> returns P p -> returns Q p.
  Proof. intros H. induction p as [[a| |]|n k IH|k IH]; cbn [returns]; auto. Qed.

  Lemma combine_app {A B} (a1 a2 : list A) (b1 b2 : list B) : length a1 = length b1 -> combine (a1 ++ a2) (b1 ++ b2) = combine a1 b1 ++ combine a2 b2.
  Proof. revert b1. induction a1 as [|x a1 IH]; intros [|y b1] L; cbn in L; try lia; cbn [app combine]; auto. now rewrite IH by lia. Qed.
  Lemma combine_rev {A B} (a : list A) (b : list B) : length a = length b -> combine (rev a) (rev b) = rev (combine a b).
  Proof.
    revert b. induction a as [|x a IH]; intros [|y b] L; cbn in L; try lia; auto. cbn [rev combine]. rewrite combine_app by (rewrite !rev_length; lia).
    now rewrite IH by lia.
  Qed.
  Lemma forall2_combine {A B} (P : A -> B -> Prop) l m x y : Forall2 P l m -> In (x, y) (combine l m) -> P x y.
  Proof. induction 1 as [|a b l m H _ IH]; cbn [combine]; intros []; [now injection H0 as <- <-|auto]. Qed.
  Lemma forall2_len {A B} (P : A -> B -> Prop) l m : Forall2 P l m -> length l = length m.
  Proof. induction 1; cbn; auto. Qed.
  Lemma forall2_rev {A B} (P : A -> B -> Prop) l m : Forall2 P l m -> Forall2 P (rev l) (rev m).
  Proof. induction 1; cbn [rev]; auto. apply Forall2_app; auto. Qed.
  Lemma forall2_app_l {A B} (P : A -> B -> Prop) a1 a2 b1 b2 : length b1 = length a1 -> Forall2 P (a1 ++ a2) (b1 ++ b2) -> Forall2 P a2 b2.
  Proof.
    revert b1. induction a1 as [|x a1 IH]; intros [|y b1] L; cbn in L; try lia; cbn [app]; auto. intros H. inversion H; subst. apply (IH b1); auto.
  Qed.

  (** what the layers return: earlier results first, then one claim for each circuit, last circuit first; the claims of
      circuits without layers left are returned as they are *)
  Lemma gpa_layers_shape o : forall todo l (gis : list (gp_inst F)) (layers fin : list (list F * F)),
    length layers = length gis -> StronglySorted ge (map (fun g : gp_inst F => fst (fst g)) gis) ->
    Forall (fun g : gp_inst F => l <= fst (fst g) <= l + todo)%nat gis -> Forall (fun c => length (fst c) = l) layers ->
    returns (fun out => exists res, out = fin ++ res /\ Forall2 final_shape (rev gis) res /\
        forall g c, In (g, c) (combine gis layers) -> fst (fst g) = l -> In (g, c) (combine (rev gis) res))
      (gpa_layers o todo l (map fst gis) layers fin).
  Proof.
    induction todo as [|todo IH]; intros l gis layers fin L S HG HL; cbn [gpa_layers];
      (destruct (process_finished_spec l gis layers fin L S) as [ag [fg [al [fl [E1 [E2 [L1 [L2 [F1 [F2 EP]]]]]]]]]];
       [eapply Forall_impl; [|exact HG]; cbn; intros; lia|]); rewrite EP; cbn [vbind].
    all: assert (FS : Forall2 final_shape (rev fg) (rev fl)) by
      (subst; apply Forall_app in HL as [_ HL]; clear - L1 F1 HL; apply Forall_rev in F1; apply Forall_rev in HL; rewrite <- (rev_length fg), <- (rev_length fl) in L1;
       revert L1 F1 HL; generalize (rev fg) (rev fl); induction l0 as [|g gs IHg]; intros [|c cs] LL FA FB; cbn in LL; try lia; constructor;
       [apply Forall_inv in FA; apply Forall_inv in FB; unfold final_shape; congruence|apply IHg; [lia|now apply Forall_inv_tail in FA|now apply Forall_inv_tail in FB]]).
    all: assert (FI : forall g c, In (g, c) (combine gis layers) -> fst (fst g) = l -> In (g, c) (combine (rev fg) (rev fl))) by
      (intros g c Hgc Hg; subst gis layers; rewrite combine_app in Hgc by auto; apply in_app_iff in Hgc as [Hgc|Hgc];
       [exfalso; apply in_combine_l in Hgc; rewrite Forall_forall in F2; specialize (F2 g Hgc); cbn beta in F2; lia|];
       rewrite combine_rev by auto; now apply -> in_rev).
    - cbn [returns]. exists (rev fl). split; [reflexivity|].
      assert (AG : ag = []).
      { destruct ag as [|g ag]; auto. exfalso. subst gis. apply Forall_inv in F2. apply Forall_inv in HG. lia. }
      subst. cbn [app] in *. split; [exact FS|auto].
    - assert (HAL : Forall (fun c => length (fst c) = l) al) by (subst layers; now apply Forall_app in HL as [HL _]).
      eapply returns_bind; [apply (reduce_layer_shape o l al HAL)|]. intros next [LN FN].
      assert (SA : StronglySorted ge (map (fun g : gp_inst F => fst (fst g)) ag)) by (subst gis; rewrite map_app in S; now apply ss_app_l in S).
      pose proof (IH (1 + l)%nat ag next (fin ++ rev fl) ltac:(lia) SA) as R.
      assert (HA : Forall (fun g : gp_inst F => 1 + l <= fst (fst g) <= 1 + l + todo)%nat ag).
      { subst gis. apply Forall_app in HG as [HG _]. rewrite Forall_forall in *. intros g Hg. specialize (HG g Hg). specialize (F2 g Hg). cbn beta in *. lia. }
      specialize (R HA FN). clear - R FS E1 FI L1. eapply returns_mono; [|exact R]. intros out [res [-> [H _]]]. exists (rev fl ++ res). rewrite app_assoc. split; [reflexivity|].
      split.
      + subst gis. rewrite rev_app_distr. now apply Forall2_app.
      + intros g c H1 H2. subst gis. rewrite rev_app_distr, combine_app by (rewrite !rev_length; auto). apply in_app_iff. left. auto.
  Qed.

  Lemma gpa_layers_sound o N : forall todo l (gis done : list (gp_inst F)) (layers fin : list (list F * F)),
    length layers = length gis -> StronglySorted ge (map (fun g : gp_inst F => fst (fst g)) gis) ->
    Forall (fun g : gp_inst F => l <= fst (fst g) <= l + todo)%nat gis -> Forall (fun c => length (fst c) = l) layers ->
    length fin = length done -> (l + todo <= N)%nat ->
    (exists g c, In (g, c) (combine gis layers) /\ ~ right_at l g c) ->
    sound (fun out => ~ Forall2 final_true (done ++ rev gis) out) (todo * (length gis + N * 3)) (gpa_layers o todo l (map fst gis) layers fin).
  Proof.
    intros todo. induction todo as [|todo IH]; intros l gis done layers fin L S HG HL LF LN [g [c [Hgc BAD]]].
    all: assert (RG : (l <= fst (fst g))%nat) by (apply in_combine_l in Hgc; rewrite Forall_forall in HG; specialize (HG g Hgc); cbn beta in HG; lia).
    all: destruct (Nat.eq_dec (fst (fst g)) l) as [EG|NG];
      [apply returns_sound; eapply returns_mono; [|apply gpa_layers_shape; auto]; intros out [res [-> [_ FI]]] FT;
       apply forall2_app_l in FT; [|exact LF]; apply BAD; unfold right_at;
       destruct (forall2_combine _ _ _ _ _ FT (FI g c Hgc EG)) as [_ ->]; rewrite <- EG, ltab_bottom; reflexivity|].
    - exfalso. apply in_combine_l in Hgc. rewrite Forall_forall in HG. specialize (HG g Hgc). cbn beta in HG. lia.
    - destruct (process_finished_spec l gis layers fin L S) as [ag [fg [al [fl [E1 [E2 [L1 [L2 [F1 [F2 EP]]]]]]]]]];
        [eapply Forall_impl; [|exact HG]; cbn; intros; lia|].
      cbn [gpa_layers]. rewrite EP. cbn [vbind].
      assert (HAL : Forall (fun c => length (fst c) = l) al) by (subst layers; now apply Forall_app in HL as [HL' _]).
      assert (SA : StronglySorted ge (map (fun g : gp_inst F => fst (fst g)) ag)) by (subst gis; rewrite map_app in S; now apply ss_app_l in S).
      assert (HA : Forall (fun g : gp_inst F => 1 + l <= fst (fst g) <= 1 + l + todo)%nat ag).
      { subst gis. apply Forall_app in HG as [HG _]. rewrite Forall_forall in *. intros g' Hg. specialize (HG g' Hg). specialize (F2 g' Hg). cbn beta in *. lia. }
      assert (INA : In (g, c) (combine ag al)).
      { subst gis layers. rewrite combine_app in Hgc by auto. apply in_app_iff in Hgc as [|Hgc]; auto. exfalso. apply in_combine_l in Hgc. rewrite Forall_forall in F1. now apply NG, F1. }
      assert (SR : sound (fun next => (exists g c, In (g, c) (combine ag next) /\ ~ right_at (1 + l) g c) /\
                             (length next = length al /\ Forall (fun c => length (fst c) = (1 + l)%nat) next)) (length ag + l * 3 + 1) (reduce_layer o al)).
      { apply sound_returns; [|apply reduce_layer_shape; exact HAL]. apply reduce_layer_sound; auto. exists g, c. split; auto. }
      eapply sound_mono with (good := fun out => ~ Forall2 final_true ((done ++ rev fg) ++ rev ag) out) (e := ((length ag + l * 3 + 1) + todo * (length ag + N * 3))%nat).
      + eapply sound_bind; [exact SR|]. intros next [B [LNX FN]].
        apply IH; auto; try lia. rewrite !app_length, !rev_length. lia.
      + subst gis. rewrite app_length. cbn [Nat.mul]. nia.
      + intros out H FT. apply H. subst gis. rewrite rev_app_distr, app_assoc in FT. exact FT.
  Qed.

  Lemma sorted_hd (gis : list (gp_inst F)) : StronglySorted ge (map (fun g : gp_inst F => fst (fst g)) gis) ->
    Forall (fun g : gp_inst F => 0 <= fst (fst g) <= 0 + match map fst gis with [] => 0 | c :: _ => fst c end)%nat gis.
  Proof.
    intros S. apply Forall_forall. intros g Hg. split; [lia|]. cbn [Nat.add]. destruct gis as [|g0 gis]; [destruct Hg|]. cbn [map fst].
    destruct Hg as [<-|Hg]; [lia|]. cbn [map] in S. apply StronglySorted_inv in S as [_ FA]. rewrite Forall_map, Forall_forall in FA. specialize (FA g Hg). unfold ge in FA. exact FA.
  Qed.

  (** sorting claims and instances *)
  Lemma insert_map {A B} (f : A -> B) le x l : insert le (f x) (map f l) = map f (insert (fun a b => le (f a) (f b)) x l).
  Proof. induction l as [|y l IH]; cbn [insert map]; [reflexivity|]. destruct (le (f x) (f y)); cbn [map]; [reflexivity|]. now rewrite IH. Qed.
  Lemma sort_map {A B} (f : A -> B) le l : sort_by le (map f l) = map f (sort_by (fun a b => le (f a) (f b)) l).
  Proof. induction l as [|x l IH]; cbn [sort_by fold_right map]; [reflexivity|]. fold (sort_by le (map f l)). now rewrite IH, insert_map. Qed.

  Lemma stable_sort_map {A B} (f : A -> B) (key : B -> nat) d (l : list A) :
    stable_sort (map f l) key d = (fst (stable_sort l (fun a => key (f a)) d), map f (snd (stable_sort l (fun a => key (f a)) d))).
  Proof.
    unfold stable_sort. rewrite map_length.
    assert (E : combine (seq 0 (length l)) (map f l) = map (fun p : nat * A => (fst p, f (snd p))) (combine (seq 0 (length l)) l)).
    { generalize 0%nat. induction l as [|x l IH]; intros s; cbn [length seq combine map]; [reflexivity|]. now rewrite IH. }
    rewrite E. destruct d; rewrite sort_map; cbn [fst snd]; rewrite !map_map; reflexivity.
  Qed.

  Definition max_n (insts : list (gp_inst F)) : nat := fold_right Nat.max 0%nat (map (fun g : gp_inst F => fst (fst g)) insts).

  Lemma unsort_forall2 {A} (Q : gp_inst F -> A -> Prop) (insts : list (gp_inst F)) (res : list A) :
    let '(idx, sorted) := stable_sort insts (fun g => fst (fst g)) true in
    length res = length sorted -> (Forall2 Q insts (unsort idx res) <-> Forall2 Q sorted res).
  Proof.
    pose proof (stable_sort_spec insts (fun g : gp_inst F => fst (fst g)) true) as H. destruct (stable_sort _ _ _) as [idx sorted].
    destruct H as [P [LS [M _]]]. intros LR. destruct (unsort_spec idx res) as [LU NU]; [now rewrite LR, LS|].
    assert (G : forall (X Y : Type) (R : X -> Y -> Prop) l m, Forall2 R l m <-> length l = length m /\ forall i x y, nth_error l i = Some x -> nth_error m i = Some y -> R x y).
    { clear. intros X Y R. induction l as [|a l IH]; intros [|b m]; split.
      - intros _. split; auto. intros [|]; discriminate.
      - constructor.
      - intros H. inversion H.
      - intros [H _]. discriminate.
      - intros H. inversion H.
      - intros [H _]. discriminate.
      - intros H. inversion H as [|? ? ? ? H1 H2]; subst. apply IH in H2 as [L N]. split; [cbn; lia|]. intros [|i] x y E1 E2; cbn in E1, E2; [congruence|eauto].
      - intros [L N]. constructor; [apply (N 0%nat); reflexivity|]. apply IH. split; [cbn in L; lia|]. intros i x y E1 E2. apply (N (S i)); auto. }
    rewrite !G. assert (LI : length idx = length insts) by (apply Permutation_length in P; now rewrite seq_length in P).
    assert (SI : forall j i, nth_error idx j = Some i -> nth_error sorted j = nth_error insts i).
    { intros j i Hj. assert (E : nth_error (map (nth_error insts) idx) j = nth_error (map Some sorted) j) by now rewrite M.
      rewrite !nth_error_map, Hj in E. cbn [option_map] in E. destruct (nth_error sorted j); cbn in E; [congruence|discriminate]. }
    split.
    - intros [_ N]. split; [congruence|]. intros j x y E1 E2.
      destruct (nth_error idx j) as [i|] eqn:EJ; [|apply nth_error_None in EJ; assert (j < length sorted)%nat by (apply nth_error_Some; congruence); lia].
      apply (N i); [rewrite <- (SI _ _ EJ); auto|rewrite (NU _ _ EJ); auto].
    - intros [_ N]. split; [congruence|]. intros i x y E1 E2.
      assert (IN : In i idx) by (apply (Permutation_in _ (Permutation_sym P)), in_seq; assert (i < length insts)%nat by (apply nth_error_Some; congruence); lia).
      apply In_nth_error in IN as [j Hj]. apply (N j); [rewrite (SI _ _ Hj); auto|rewrite <- (NU _ _ Hj); auto].
  Qed.

  Lemma max_perm (l l' : list nat) : Permutation l l' -> fold_right Nat.max 0%nat l = fold_right Nat.max 0%nat l'.
  Proof. induction 1; cbn [fold_right]; lia. Qed.

  Lemma sorted_max (gis : list (gp_inst F)) : StronglySorted ge (map (fun g : gp_inst F => fst (fst g)) gis) ->
    match map fst gis with [] => 0%nat | c :: _ => fst c end = max_n gis.
  Proof.
    intros S. unfold max_n. destruct gis as [|g gis]; [reflexivity|]. cbn [map fst fold_right] in *. apply StronglySorted_inv in S as [_ FA].
    assert (H : (fold_right Nat.max 0%nat (map (fun g : gp_inst F => fst (fst g)) gis) <= fst (fst g))%nat); [|lia].
    induction gis as [|h gis IH]; cbn [map fold_right] in *; [lia|]. apply Forall_cons_iff in FA as [F1 FA]. specialize (IH FA). unfold ge in F1. lia.
  Qed.

  Lemma gpa_perm (insts : list (gp_inst F)) : Permutation (snd (stable_sort insts (fun g => fst (fst g)) true)) insts.
  Proof.
    unfold stable_sort. cbn [snd]. transitivity (map snd (combine (seq 0 (length insts)) insts)); [apply Permutation_map, sort_perm|].
    now rewrite map_snd_combine_seq.
  Qed.

  (** Every accepted output has one claim per circuit, in order, with a point of as many coordinates as it has variables. *)
  Lemma gpa_verify_returns o (insts : list (gp_inst F)) : returns (Forall2 final_shape insts) (gpa_verify o (map fst insts)).
  Proof.
    unfold gpa_verify. rewrite stable_sort_map.
    pose proof (stable_sort_spec insts (fun g : gp_inst F => fst (fst g)) true) as H.
    pose proof (unsort_forall2 final_shape insts) as UF.
    destruct (stable_sort insts (fun g : gp_inst F => fst (fst g)) true) as [idx sorted]. cbn [fst snd]. destruct H as [_ [_ [_ [S _]]]].
    eapply returns_bind; [apply gpa_layers_shape; [now rewrite !map_length|exact S|now apply sorted_hd|]|].
    - rewrite Forall_map. apply Forall_forall. reflexivity.
    - intros fin [res [-> [FS _]]]. cbn [returns app]. apply UF; [rewrite rev_length, <- (forall2_len _ _ _ FS), rev_length; reflexivity|].
      rewrite <- (rev_involutive sorted). now apply forall2_rev.
  Qed.
  Theorem gpa_output_shape o (insts : list (gp_inst F)) tape cs out t r :
    vrun (gpa_verify o (map fst insts)) tape cs = Ok (out, t, r) -> Forall2 final_shape insts out.
  Proof. apply returns_vrun, gpa_verify_returns. Qed.

  Lemma gpa_verify_sound o (insts : list (gp_inst F)) : (exists g, In g insts /\ ~ gp_true g) ->
    sound (fun out => ~ Forall2 final_true insts out) (max_n insts * (length insts + max_n insts * 3)) (gpa_verify o (map fst insts)).
  Proof.
    intros [g [Hg BAD]]. unfold gpa_verify. rewrite stable_sort_map.
    pose proof (stable_sort_spec insts (fun g : gp_inst F => fst (fst g)) true) as H.
    pose proof (unsort_forall2 final_true insts) as UF. pose proof (gpa_perm insts) as PM.
    destruct (stable_sort insts (fun g : gp_inst F => fst (fst g)) true) as [idx sorted]. cbn [fst snd] in *. destruct H as [_ [LS [_ [S _]]]].
    rewrite <- (Nat.add_0_r (max_n insts * _)). set (layers := map (fun c : nat * F => ([], snd c)) (map fst sorted)).
    assert (EM : max_n insts = max_n sorted) by (unfold max_n; apply max_perm, Permutation_map, Permutation_sym, PM).
    rewrite (sorted_max sorted S).
    eapply sound_bind with (good1 := fun out => (~ Forall2 final_true ([] ++ rev sorted) out) /\ length out = length sorted).
    - apply sound_returns.
      + rewrite EM, <- LS. apply (gpa_layers_sound o (max_n sorted)); auto; try lia.
        * unfold layers. now rewrite !map_length.
        * rewrite <- (sorted_max sorted S). now apply sorted_hd.
        * unfold layers. rewrite Forall_map. apply Forall_forall. reflexivity.
        * apply (Permutation_in _ (Permutation_sym PM)) in Hg. exists g, ([], snd (fst g)). split.
          -- unfold layers. rewrite map_map. clear - Hg. induction sorted as [|h sorted IH]; [destruct Hg|]. cbn [map combine]. destruct Hg as [<-|Hg]; [now left|right; auto].
          -- unfold right_at. cbn [fst snd]. intros E. apply BAD. unfold gp_true. rewrite E, mle_nil. apply ltab_top.
      + eapply returns_mono; [|apply gpa_layers_shape; [unfold layers; now rewrite !map_length|exact S| |]].
        * intros out [res [-> [FS _]]]. cbn [app]. rewrite <- (forall2_len _ _ _ FS). apply rev_length.
        * rewrite <- (sorted_max sorted S). now apply sorted_hd.
        * unfold layers. rewrite Forall_map. apply Forall_forall. reflexivity.
    - intros fin [NT LF]. constructor. cbn [app] in NT. intros FT. apply NT. apply UF in FT; [|now rewrite rev_length].
      rewrite <- (rev_involutive fin). now apply forall2_rev.
  Qed.

  (** Verification of grand product claims of which one is false: against any strategy of the prover, of the vectors of
      [k] challenges from a set [S], at most a fraction (variables * (claims + 3 * variables)) / |S| makes the verifier accept
      and return only true evaluation claims. *)
  Theorem gpa_soundness o (insts : list (gp_inst F)) : (exists g, In g insts /\ ~ gp_true g) ->
    forall (strategy : list F -> nat -> list F) (S : list F) (k : nat) (L : list (list F)),
      NoDup S -> NoDup L ->
      (forall cs, In cs L -> length cs = k /\ incl cs S /\
         exists out, vplay (gpa_verify o (map fst insts)) strategy [] 0 cs = Ok out /\ Forall2 final_true insts out) ->
      (length L * length S <= (max_n insts * (length insts + max_n insts * 3)) * length S ^ k)%nat.
  Proof. intros BAD. apply of_sound. now apply gpa_verify_sound. Qed.
End Verifier.

(** Two circuits, with no and with one variable; the second product is wrong or right. *)
Definition gp_ex (p : X16) : list (gp_inst X16) :=
  [((0%nat, el 9%N), fun _ => el 9%N); ((1%nat, p), fun x => nth x (els [3; 5]%N) (el 0%N))].

Fact gpa_ex :
  Forall gp_true (gp_ex (el 15%N)) /\ ~ Forall gp_true (gp_ex (el 14%N)) /\ max_n X16 (gp_ex (el 14%N)) = 1%nat /\
  (exists out, vrun (gpa_verify LowToHigh (map fst (gp_ex (el 15%N)))) (els [3; 5; 1]%N) (els [7; 2]%N) = Ok (out, [], []) /\
     Forall2 final_true (gp_ex (el 15%N)) out /\
     map (fun c => (map bits (fst c), bits (snd c))) out = [([], 9); ([2], 8)]%N) /\
  vrun (gpa_verify LowToHigh (map fst (gp_ex (el 14%N)))) (els [3; 5; 1]%N) (els [7; 2]%N) = Err.
Proof.
  split; [repeat constructor; vm_compute; reflexivity|]. split.
  { intros H. apply Forall_inv_tail, Forall_inv in H. apply (f_equal bits) in H. vm_compute in H. discriminate H. }
  split; [vm_compute; reflexivity|]. split; [|vm_compute; reflexivity].
  eexists. split; [vm_compute; reflexivity|]. split; [|vm_compute; reflexivity].
  repeat (constructor; try (split; vm_compute; reflexivity)).
Qed.

(** a witness of one packed element of width 2 for three variables: the other inputs are one *)
Fact gp_witness_ex :
  (1 <=? 2 ^ (3 - 1))%nat = true /\
  exists layers, gp_witness_new 1 3 (els [3; 5]%N) = Ok layers /\ map (map bits) layers = [[3; 5]; [3; 5]; [3; 5]; [15; 0]]%N.
Proof. split; [reflexivity|]. eexists. split; vm_compute; reflexivity. Qed.
