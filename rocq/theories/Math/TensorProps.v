(** C13: tensor product expansion and multilinear queries. *)
Require Import Coq.NArith.NArith Coq.setoid_ring.Ring Coq.Arith.Arith Coq.Lists.List Coq.Bool.Bool Lia.
From Verif Require Import Base.Fld Base.Lists Base.Sums Math.MleSpec Math.MleModel Field.Examples.
Import ListNotations.

Lemma pow_div_max a b : Nat.max 1 (2 ^ a / 2 ^ b) = (2 ^ (a - b))%nat.
Proof.
  destruct (Nat.le_gt_cases b a).
  - rewrite <- Nat.pow_sub_r by lia. pose proof (pow2_gt0 (a - b)). lia.
  - replace (a - b)%nat with 0%nat by lia. cbn [Nat.pow].
    rewrite Nat.div_small; [lia|]. apply Nat.pow_lt_mono_r; lia.
Qed.

Lemma pow_sub_mul a b : (2 ^ (a - b) * 2 ^ b = 2 ^ Nat.max a b)%nat.
Proof. rewrite <- Nat.pow_add_r. f_equal. lia. Qed.

Lemma pow2_le a b : (a <= b -> 2 ^ a <= 2 ^ b)%nat.
Proof. intros. apply Nat.pow_le_mono_r; lia. Qed.

Lemma lor_pow2 m h : (h < 2 ^ m)%nat -> Nat.lor (2 ^ m) h = (2 ^ m + h)%nat.
Proof.
  intros H. pose proof (lor_shl 1 m h H) as E. rewrite Nat.shiftl_1_l in E. rewrite E. lia.
Qed.

Section Tensor.
  Variable F : field.
  Local Open Scope fld_scope.
  Add Ring Fring : (f_ring F).

  Lemma tensor_step_spec lw m r (vals : list F) :
    (2 ^ S m <= length vals)%nat ->
    exists out, tensor_step lw m r vals = Some out /\ length out = length vals /\
      (forall x, (x < 2 ^ m)%nat -> nth x out 0 = nth x vals 0 * (1 - r)) /\
      (forall x, (x < 2 ^ m)%nat -> nth (2 ^ m + x) out 0 = nth x vals 0 * r) /\
      (forall x, (2 ^ S m <= x)%nat -> nth x out 0 = nth x vals 0).
  Proof.
    intros HL. rewrite Nat.pow_succ_r' in *. unfold tensor_step.
    destruct (Nat.ltb_spec (2 ^ m) (2 ^ lw)) as [L|L].
    - set (ps := map (fun h => (h, Nat.lor (2 ^ m) h)) (seq 0 (2 ^ m))).
      assert (HP : forall p, In p ps <-> exists h, (h < 2 ^ m)%nat /\ p = (h, (2 ^ m + h)%nat)).
      { intros p. unfold ps. rewrite in_map_iff. split.
        - intros [h [<- Hh]]. apply in_seq in Hh. exists h. split; [lia|]. rewrite lor_pow2 by lia. reflexivity.
        - intros [h [Hh ->]]. exists h. split; [rewrite lor_pow2 by lia; reflexivity|]. apply in_seq. lia. }
      destruct (pairs_fold (fun _ _ x _ => let prod := x * r in Some (x - prod, prod)) ps vals)
        as [out [E [EL [EP EO]]]].
      + apply NoDup_map_in; [apply seq_NoDup|]. intros x y _ _ Exy. congruence.
      + intros p Hp. apply HP in Hp. destruct Hp as [h [Hh ->]]. cbn [fst snd]. lia.
      + intros p q Hp Hq NE. apply HP in Hp. apply HP in Hq.
        destruct Hp as [h [Hh ->]], Hq as [h' [Hh' ->]]. cbn [fst snd].
        assert (h <> h') by congruence. lia.
      + intros. eauto.
      + exists out. split; auto. split; auto.
        assert (PR : forall h, (h < 2 ^ m)%nat ->
          nth h out 0 = nth h vals 0 - nth h vals 0 * r /\ nth (2 ^ m + h) out 0 = nth h vals 0 * r).
        { intros h Hh. destruct (EP (h, (2 ^ m + h)%nat) (nth h vals 0) (nth (2 ^ m + h) vals 0)) as [x' [y' [E1 [E2 E3]]]].
          - apply HP. eauto.
          - cbn [fst]. apply nth_error_nth_eq. lia.
          - cbn [snd]. apply nth_error_nth_eq. lia.
          - cbn [fst snd] in E2, E3. injection E1 as E1 E1'. subst x' y'.
            rewrite (nth_error_nth _ _ _ E2), (nth_error_nth _ _ _ E3). auto. }
        split; [|split].
        * intros h Hh. rewrite (proj1 (PR h Hh)). ring.
        * intros h Hh. apply (proj2 (PR h Hh)).
        * intros x Hx. destruct (Nat.lt_ge_cases x (length vals)).
          -- pose proof (EO x) as EOx. rewrite (nth_error_nth_eq vals x 0) in EOx by auto.
             apply nth_error_nth. apply EOx. intros p Hp. apply HP in Hp. destruct Hp as [h [Hh ->]]. cbn. lia.
          -- rewrite !nth_overflow; auto; lia.
    - assert (LX : length (firstn (2 ^ m) vals) = (2 ^ m)%nat) by (rewrite firstn_length; lia).
      destruct (Nat.leb_spec (length (firstn (2 ^ m) vals)) (length (skipn (2 ^ m) vals))) as [L2|L2].
      2:{ rewrite LX, skipn_length in L2. lia. }
      eexists. split; [reflexivity|]. rewrite LX. split; [|split; [|split]].
      + rewrite !app_length, !map_length, !skipn_length, LX. lia.
      + intros x Hx. rewrite app_nth1 by (rewrite map_length; lia).
        rewrite nth_map_lt with (d' := 0) by lia. rewrite nth_firstn_lt by auto. ring.
      + intros x Hx. rewrite app_nth2 by (rewrite map_length; lia). rewrite map_length, LX.
        replace (2 ^ m + x - 2 ^ m)%nat with x by lia.
        rewrite app_nth1 by (rewrite map_length; lia).
        rewrite nth_map_lt with (d' := 0) by lia. now rewrite nth_firstn_lt by auto.
      + intros x Hx. rewrite app_nth2 by (rewrite map_length; lia).
        rewrite app_nth2 by (rewrite !map_length; lia). rewrite !map_length, LX, !nth_skipn'.
        f_equal. lia.
  Qed.

  Lemma tensor_loop_spec lw coords : forall m (vals : list F),
    (2 ^ (m + length coords) <= length vals)%nat ->
    exists out, tensor_loop lw m coords vals = Some out /\ length out = length vals /\
      (forall x, (x < 2 ^ (m + length coords))%nat ->
         nth x out 0 = nth (x mod 2 ^ m) vals 0 * eqw coords (x / 2 ^ m)) /\
      (forall x, (2 ^ (m + length coords) <= x)%nat -> nth x out 0 = nth x vals 0).
  Proof.
    induction coords as [|r rs IH]; intros m vals HL; cbn [tensor_loop length] in *.
    - rewrite Nat.add_0_r in *. exists vals. repeat split; auto. intros x Hx.
      rewrite Nat.mod_small by auto. cbn [eqw]. ring.
    - replace (m + S (length rs))%nat with (S m + length rs)%nat in * by lia.
      destruct (tensor_step_spec lw m r vals) as [v [E [EL [V0 [V1 V2]]]]].
      { etransitivity; [|exact HL]. apply pow2_le. lia. }
      rewrite E. cbn [obind]. destruct (IH (S m) v) as [out [E2 [EL2 [O1 O2]]]]; [lia|].
      exists out. split; auto. split; [lia|]. split.
      + intros x Hx. rewrite O1 by auto. cbn [eqw].
        assert (M : (2 ^ m <> 0)%nat) by (pose proof (pow2_gt0 m); lia).
        rewrite (Nat.pow_succ_r' 2 m), (Nat.mul_comm 2), <- Nat.div_div by lia.
        rewrite Nat.mod_mul_r by lia.
        set (lo := (x mod 2 ^ m)%nat). set (h := (x / 2 ^ m)%nat).
        assert (Hlo : (lo < 2 ^ m)%nat) by (apply Nat.mod_upper_bound; auto).
        rewrite <- Nat.bit0_mod, Nat.bit0_odd. destruct (Nat.odd h); cbn [Nat.b2n].
        * rewrite Nat.mul_1_r, (Nat.add_comm lo), V1 by auto. ring.
        * rewrite Nat.mul_0_r, Nat.add_0_r, V0 by auto. ring.
      + intros x Hx. rewrite O2 by auto. apply V2. etransitivity; [|exact Hx]. apply pow2_le. lia.
  Qed.

  (** C13, main statement: on [k] packed elements, [tensor_prod_eq_ind] either rejects a wrong buffer
      length or computes the tensor product of the first [2^n] values with (1-r_i, r_i)_i, and leaves
      the unused scalars of a partially filled packed element alone. *)
  Theorem tensor_prod_eq_ind_correct lw n k (vals coords : list F) :
    length vals = (k * 2 ^ lw)%nat ->
    k = (2 ^ (n + length coords - lw))%nat ->
    exists out, tensor_prod_eq_ind lw n vals coords = Ok out /\ length out = length vals /\
      (forall x, (x < 2 ^ (n + length coords))%nat ->
         nth x out 0 = nth (x mod 2 ^ n) vals 0 * eqw coords (x / 2 ^ n)) /\
      (forall x, (2 ^ (n + length coords) <= x)%nat -> nth x out 0 = nth x vals 0).
  Proof.
    intros HL ->. unfold tensor_prod_eq_ind. rewrite pow_div_max.
    replace (length vals / 2 ^ lw)%nat with (2 ^ (n + length coords - lw))%nat
      by (rewrite HL, Nat.div_mul; auto; apply Nat.pow_nonzero; lia).
    rewrite Nat.eqb_refl. cbn [negb].
    destruct (tensor_loop_spec lw coords n vals) as [out [E HO]].
    - rewrite HL, pow_sub_mul. apply pow2_le. lia.
    - exists out. rewrite E. split; auto.
  Qed.

  Theorem tensor_prod_eq_ind_rejects lw n k (vals coords : list F) :
    length vals = (k * 2 ^ lw)%nat -> k <> (2 ^ (n + length coords - lw))%nat ->
    tensor_prod_eq_ind lw n vals coords = Err.
  Proof.
    intros HL Hk. unfold tensor_prod_eq_ind. rewrite pow_div_max, HL, Nat.div_mul by (apply Nat.pow_nonzero; lia).
    now rewrite (proj2 (Nat.eqb_neq _ _) Hk).
  Qed.

  Lemma one_vec_length lw k : length (@one_vec F lw k) = (2 ^ k * 2 ^ lw)%nat.
  Proof. unfold one_vec. now rewrite upd_length, repeat_length. Qed.

  Lemma one_vec_nth lw k x : nth x (@one_vec F lw k) 0 = if (x =? 0)%nat then 1 else 0.
  Proof.
    unfold one_vec. rewrite upd_nth, repeat_length.
    destruct (Nat.eqb_spec x 0) as [->|E]; cbn [andb].
    - pose proof (pow2_gt0 k). pose proof (pow2_gt0 lw). destruct (Nat.ltb_spec 0 (2 ^ k * 2 ^ lw)); auto. nia.
    - destruct (Nat.lt_ge_cases x (2 ^ k * 2 ^ lw)); [now apply nth_repeat0|].
      apply nth_overflow. now rewrite repeat_length.
  Qed.

  (** [eq_ind_partial_eval] never panics; scalar [x] of the result is the equality indicator of the
      hypercube vertex [x] and the point; any padding is zero. *)
  Theorem eq_ind_partial_eval_correct lw (point : list F) :
    exists out, eq_ind_partial_eval lw point = Ok out /\
      length out = (2 ^ (length point - lw) * 2 ^ lw)%nat /\
      (forall x, (x < 2 ^ length point)%nat -> nth x out 0 = eqw point x) /\
      (forall x, (2 ^ length point <= x)%nat -> nth x out 0 = 0).
  Proof.
    destruct (tensor_prod_eq_ind_correct lw 0 (2 ^ (length point - lw))
                (one_vec lw (length point - lw)) point) as [out [E [EL [O1 O2]]]].
    - apply one_vec_length.
    - reflexivity.
    - exists out. unfold eq_ind_partial_eval. rewrite E. cbn [expect Nat.add] in *.
      split; auto. split; [now rewrite EL, one_vec_length|]. split.
      + intros x Hx. rewrite O1 by auto. cbn [Nat.pow]. rewrite Nat.mod_1_r, Nat.div_1_r, one_vec_nth.
        cbn. ring.
      + intros x Hx. rewrite O2, one_vec_nth by auto. pose proof (pow2_gt0 (length point)).
        destruct (Nat.eqb_spec x 0); auto. lia.
  Qed.

  (* ---------------------------------------------------------------- *)
  (** Queries *)

  (** [q] holds the expansion of [point] in a buffer of [2^c] packed elements. *)
  Definition query_holds (lw c : nat) (q : mquery F) (point : list F) : Prop :=
    q_nvars q = length point /\
    length (q_expanded q) = (2 ^ c * 2 ^ lw)%nat /\
    (length point - lw <= c)%nat /\
    forall x, (x < 2 ^ length point)%nat -> nth x (q_expanded q) 0 = eqw point x.

  Theorem with_capacity_holds lw m : query_holds lw (m - lw) (with_capacity lw m) [].
  Proof.
    repeat split; cbn [q_nvars q_expanded with_capacity length].
    - apply one_vec_length.
    - lia.
    - intros x Hx. cbn in Hx. rewrite one_vec_nth. replace x with 0%nat by lia. reflexivity.
  Qed.

  Theorem query_expand_correct lw (point : list F) :
    exists q, query_expand lw point = Ok q /\ query_holds lw (length point - lw) q point.
  Proof.
    destruct (eq_ind_partial_eval_correct lw point) as [out [E [EL [O1 O2]]]].
    exists (mkQuery (length point) out). unfold query_expand. rewrite E. cbn [rbind]. split; auto.
    repeat split; cbn [q_nvars q_expanded]; auto.
  Qed.

  (** [update] extends the point, or fails (leaving no query) exactly when the capacity is exceeded. *)
  Theorem query_update_correct lw c q point coords :
    query_holds lw c q point ->
    if (length point + length coords - lw <=? c)%nat
    then exists q', query_update lw q coords = Ok q' /\ query_holds lw c q' (point ++ coords)
    else query_update lw q coords = Err.
  Proof.
    intros [HN [HL [HC HX]]]. unfold query_update. rewrite HN, Nat.max_comm, pow_div_max, HL.
    rewrite Nat.div_mul by (apply Nat.pow_nonzero; lia).
    set (nn := (length point + length coords)%nat).
    destruct (Nat.leb_spec (nn - lw) c) as [L|L].
    - assert (LP : (2 ^ (nn - lw) <= 2 ^ c)%nat) by (now apply pow2_le).
      destruct (Nat.ltb_spec (2 ^ c) (2 ^ (nn - lw))) as [|_]; [lia|].
      assert (LC : (2 ^ (nn - lw) * 2 ^ lw <= length (q_expanded q))%nat) by (rewrite HL; nia).
      destruct (tensor_prod_eq_ind_correct lw (length point) (2 ^ (nn - lw))
                 (firstn (2 ^ (nn - lw) * 2 ^ lw) (q_expanded q)) coords) as [out [E [EL [O1 O2]]]].
      + rewrite firstn_length. lia.
      + reflexivity.
      + rewrite E. cbn [rbind]. eexists. split; [reflexivity|].
        rewrite firstn_length, Nat.min_l in EL by lia.
        repeat split; cbn [q_nvars q_expanded].
        * now rewrite app_length.
        * rewrite app_length, skipn_length, EL. lia.
        * now rewrite app_length.
        * rewrite app_length. fold nn. intros x Hx.
          assert (Hx2 : (x < 2 ^ (nn - lw) * 2 ^ lw)%nat).
          { rewrite pow_sub_mul. eapply Nat.lt_le_trans; [exact Hx|]. apply pow2_le. lia. }
          rewrite app_nth1 by lia. rewrite O1 by auto.
          assert (Hm : (x mod 2 ^ length point < 2 ^ length point)%nat)
            by (apply Nat.mod_upper_bound, Nat.pow_nonzero; lia).
          rewrite nth_firstn_lt.
          -- rewrite HX by auto. symmetry. apply eqw_app.
          -- eapply Nat.le_lt_trans; [|exact Hx2]. apply Nat.mod_le, Nat.pow_nonzero. lia.
    - destruct (Nat.ltb_spec (2 ^ c) (2 ^ (nn - lw))) as [|L2]; auto.
      pose proof (Nat.pow_lt_mono_r 2 c (nn - lw)). lia.
  Qed.

  Lemma expansion_correct lw c q point :
    query_holds lw c q point ->
    exists ex, expansion lw q = Some ex /\ length ex = (2 ^ (length point - lw) * 2 ^ lw)%nat /\
      forall x, (x < 2 ^ length point)%nat -> nth x ex 0 = eqw point x.
  Proof.
    intros [HN [HL [HC HX]]]. unfold expansion. rewrite HN, HL.
    assert (LP : (2 ^ (length point - lw) <= 2 ^ c)%nat) by (now apply pow2_le).
    destruct (Nat.leb_spec (2 ^ (length point - lw) * 2 ^ lw) (2 ^ c * 2 ^ lw)) as [L|L]; [|nia].
    eexists. split; [reflexivity|]. rewrite firstn_length, HL. split; [lia|].
    intros x Hx. rewrite nth_firstn_lt; auto. rewrite pow_sub_mul.
    eapply Nat.lt_le_trans; [exact Hx|]. apply pow2_le. lia.
  Qed.

  (** Any history of updates from an empty query: if no update failed, the expansion is that of the
      concatenation of all the coordinates. *)
  Fixpoint updates (lw : nat) (q : mquery F) (l : list (list F)) : res (mquery F) :=
    match l with
    | [] => Ok q
    | c :: l' => try q' <- query_update lw q c; updates lw q' l'
    end.

  Theorem query_history_correct lw m (l : list (list F)) :
    if (length (concat l) - lw <=? m - lw)%nat
    then exists q ex, updates lw (with_capacity lw m) l = Ok q /\ q_nvars q = length (concat l) /\
           expansion lw q = Some ex /\
           forall x, (x < 2 ^ length (concat l))%nat -> nth x ex 0 = eqw (concat l) x
    else updates lw (with_capacity lw m) l = Err.
  Proof.
    assert (G : forall l q point, query_holds lw (m - lw) q point ->
      if (length (point ++ concat l) - lw <=? m - lw)%nat
      then exists q', updates lw q l = Ok q' /\ query_holds lw (m - lw) q' (point ++ concat l)
      else updates lw q l = Err).
    { clear l. induction l as [|c l IH]; intros q point HQ; cbn [updates concat].
      - rewrite app_nil_r. destruct (Nat.leb_spec (length point - lw) (m - lw)); eauto.
        destruct HQ as [_ [_ [HC _]]]. lia.
      - pose proof (query_update_correct lw _ q point c HQ) as HU.
        destruct (Nat.leb_spec (length point + length c - lw) (m - lw)) as [L|L].
        + destruct HU as [q' [EU HQ']]. rewrite EU. cbn [rbind].
          specialize (IH q' _ HQ'). now rewrite <- app_assoc in IH.
        + rewrite HU. cbn [rbind]. rewrite !app_length.
          destruct (Nat.leb_spec (length point + (length c + length (concat l)) - lw) (m - lw)); auto. lia. }
    specialize (G l _ _ (with_capacity_holds lw m)). cbn [app] in G.
    destruct (Nat.leb_spec (length (concat l) - lw) (m - lw)); auto.
    destruct G as [q [E HQ]]. destruct (expansion_correct lw _ q _ HQ) as [ex [EE [_ EX]]].
    exists q, ex. repeat split; auto. apply HQ.
  Qed.
End Tensor.

Arguments query_holds {_} _ _ _ _.

(** Concrete instances: the equality-indicator expansion of two coordinates of the field with 16
    elements, and a query that is expanded and then updated. *)
Example eq_ind_partial_eval_ex :
  shown (eq_ind_partial_eval 1 (els [3; 5]%N)) = Ok [8; 12; 10; 15]%N.
Proof. vm_compute. reflexivity. Qed.

Example query_history_ex :
  shown (try q1 <- query_update 1 (with_capacity 1 3) (els [3]%N);
         try q2 <- query_update 1 q1 (els [5]%N); of_opt (expansion 1 q2)) = Ok [8; 12; 10; 15]%N.
Proof. vm_compute. reflexivity. Qed.
