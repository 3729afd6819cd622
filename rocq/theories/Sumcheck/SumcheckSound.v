(** Round-by-round analysis of the sumcheck verifiers. *)
Require Import Coq.setoid_ring.Ring Coq.Arith.Arith Coq.Lists.List Coq.Bool.Bool Coq.Sorting.Sorted Lia.
From Verif Require Import Base.Fld Base.Lists Base.Sums Base.Poly Math.MleModel Math.MleSpec Math.UnivariateModel
  Math.UnivariateProps Protocol.Proto Protocol.Soundness Sumcheck.SumcheckModel Sumcheck.SumcheckSpec Sumcheck.SumcheckProofs.
Import ListNotations.

Section Sound.
  Variable F : field.
  Local Open Scope fld_scope.
  Add Ring Fring : (f_ring F).

  Lemma ok_eq {A} (x y : A) : Ok x = Ok y -> x = y.
  Proof. now injection 1. Qed.

  Lemma is_poly_fsum {A} d (f : A -> F -> F) l : (forall i, In i l -> is_poly d (f i)) ->
    is_poly d (fun x => fsum (map (fun i => f i x) l)).
  Proof.
    induction l as [|i l IH]; intros H; cbn [map fsum].
    - apply is_poly_le with (n := 0%nat); [lia|]. apply is_poly_0.
    - apply (is_poly_add F d (f i) (fun x => fsum (map (fun i => f i x) l))); [apply H; now left|].
      apply IH. intros; apply H; now right.
  Qed.

  Lemma fsum_map_add {A} (f g : A -> F) l : fsum (map (fun i => f i + g i) l) = fsum (map f l) + fsum (map g l).
  Proof. induction l as [|a l IH]; cbn [map fsum]; [ring|]. rewrite IH. ring. Qed.

  Lemma read_evals_sound {B} (good : B -> Prop) e claims : forall k,
    (forall evals, sound good e (k evals)) -> sound good e (vbind (read_evals (F:=F) claims) k).
  Proof.
    induction claims as [|c claims IH]; intros k H; cbn [read_evals]; [apply H|].
    apply sound_assoc. apply sound_bind_read. intros l Hl.
    apply sound_assoc. apply IH. intros evals. cbn [vbind]. apply H.
  Qed.

  Lemma list_sum_app l m : list_sum (l ++ m) = (list_sum l + list_sum m)%nat.
  Proof. induction l; cbn; [reflexivity|]. unfold list_sum in *. lia. Qed.

  (* ---------------------------------------------------------------- *)
  (** [batch_verify] *)
  Section Batch.
    Variables (o : order) (insts : list (inst F)).

    (** the challenges of the rounds in which an instance took part, [n] rounds before the end *)
    Definition own (n : nat) (i : inst F) (chal : list F) : list F :=
      skipn (length chal - (cl_n (fst i) - n)) chal.

    Definition T (n : nat) (acts : list (inst F * F)) (chal : list F) : F :=
      fsum (map (fun ia => TV o (fst ia) (snd ia) (own n (fst ia) chal) n) acts).

    Record Inv (n : nat) (acts : list (inst F * F)) (pend : list (inst F)) (st : bstate F) : Prop :=
      { inv_insts : map fst acts ++ pend = insts;
        inv_pend : b_pending st = map fst pend;
        inv_coeffs : b_coeffs st = map snd acts;
        inv_len : (length (b_chal st) + n = max_vars insts)%nat;
        inv_pend_n : forall i, In i pend -> (cl_n (fst i) <= n)%nat;
        inv_acts_n : forall ia, In ia acts -> (n <= cl_n (fst (fst ia)))%nat;
        inv_deg : forall ia, In ia acts -> (max_individual_degree (fst (fst ia)) <= b_deg st)%nat;
        inv_deg_max : (b_deg st <= max_degree insts)%nat;
        inv_bad : b_sum st <> T n acts (b_chal st) \/ exists i, In i pend /\ ~ claim_true i }.

    Lemma own_new n i chal : cl_n (fst i) = n -> own n i chal = [].
    Proof. intros E. unfold own. rewrite E, Nat.sub_diag, Nat.sub_0_r. apply skipn_all. Qed.

    Lemma own_snoc n i chal x : (S n <= cl_n (fst i))%nat -> (length chal + S n >= cl_n (fst i))%nat ->
      own n i (chal ++ [x]) = own (S n) i chal ++ [x].
    Proof.
      intros H1 H2. unfold own. rewrite app_length. cbn [length].
      replace (length chal + 1 - (cl_n (fst i) - n))%nat with (length chal - (cl_n (fst i) - S n))%nat by lia.
      apply skipn_snoc. lia.
    Qed.

    (** the step shared by [activate] and [activate_rest] *)
    Lemma activate_one n acts i pend st : Inv n acts (i :: pend) st -> cl_n (fst i) = n ->
      exists b, at_most (length (cl_sums (fst i))) b /\
        forall a, b a = false ->
          Inv n (acts ++ [(i, a)]) pend
            (mkB (map fst pend) (b_coeffs st ++ [a]) (b_chal st) (b_sum st + claim_sum a (fst i))
                 (Nat.max (b_deg st) (max_individual_degree (fst i)))).
    Proof.
      intros I Hn. destruct I as [I1 I2 I3 I4 I5 I6 I7 I8 I9].
      assert (INI : In i insts) by (rewrite <- I1; apply in_app_iff; right; now left).
      assert (D : (max_individual_degree (fst i) <= max_degree insts)%nat).
      { unfold max_degree. apply max_list_ge. now apply (in_map (fun i => max_individual_degree (fst i))). }
      assert (G : forall b, 
         (forall a, b a = false -> b_sum st + claim_sum a (fst i) <> T n acts (b_chal st) + TV o i a [] (cl_n (fst i))
                                   \/ exists j, In j pend /\ ~ claim_true j) ->
         forall a, b a = false -> Inv n (acts ++ [(i, a)]) pend
            (mkB (map fst pend) (b_coeffs st ++ [a]) (b_chal st) (b_sum st + claim_sum a (fst i))
                 (Nat.max (b_deg st) (max_individual_degree (fst i))))).
      { intros b HB a Ha. constructor; cbn [b_pending b_coeffs b_chal b_sum b_deg].
        - now rewrite map_app, <- app_assoc.
        - reflexivity.
        - now rewrite I3, map_app.
        - exact I4.
        - intros j Hj. apply I5. now right.
        - intros ia Hia. apply in_app_iff in Hia as [Hia|[<-|[]]]; auto. cbn. lia.
        - intros ia Hia. apply in_app_iff in Hia as [Hia|[<-|[]]]; [specialize (I7 ia Hia)|]; cbn [fst]; lia.
        - lia.
        - destruct (HB a Ha) as [N|]; auto. left. unfold T. rewrite map_app, fsum_app. cbn [map fsum fst snd].
          rewrite own_new by exact Hn. fold (T n acts (b_chal st)). rewrite Hn in N. intros E. apply N. rewrite E. ring. }
      destruct I9 as [N|[j [[<-|Hj] NT]]].
      - destruct (batch_in F o i (b_sum st) (T n acts (b_chal st)) (or_introl N)) as [b [B1 B2]].
        exists b. split; [exact B1|]. apply G. intros a Ha. left. now apply B2.
      - destruct (batch_in F o i (b_sum st) (T n acts (b_chal st)) (or_intror NT)) as [b [B1 B2]].
        exists b. split; [exact B1|]. apply G. intros a Ha. left. now apply B2.
      - exists (fun _ => false). split; [apply at_most_none|]. apply G. intros a _. right. now exists j.
    Qed.

    Hypothesis SD : StronglySorted ge (map (fun i : inst F => cl_n (fst i)) insts).

    Lemma pend_sorted (acts : list (inst F * F)) (pend : list (inst F)) i : map fst acts ++ i :: pend = insts ->
      forall j, In j pend -> (cl_n (fst j) <= cl_n (fst i))%nat.
    Proof.
      intros E j Hj. rewrite <- E, map_app in SD. apply strongly_sorted_app in SD as [_ [S2 _]].
      cbn [map] in S2. inversion S2 as [|? ? _ H]; subst. rewrite Forall_forall in H.
      specialize (H (cl_n (fst j))). apply H. now apply (in_map (fun i => cl_n (fst i))).
    Qed.

    Lemma activate_sound {B} (good : B -> Prop) n e k :
      (forall acts' pend' st', Inv n acts' pend' st' -> (forall i, In i pend' -> cl_n (fst i) < n)%nat ->
         sound good (n_composites pend' + e) (k st')) ->
      forall pend acts st, Inv n acts pend st ->
        sound good (n_composites pend + e)
          (vbind (activate n (b_pending st) (b_coeffs st) (b_chal st) (b_sum st) (b_deg st)) k).
    Proof.
      intros HK pend. induction pend as [|i pend IH]; intros acts st I.
      - rewrite (inv_pend _ _ _ _ I). cbn [map activate vbind].
        apply (HK acts []); [|intros i []]. destruct st; destruct I; cbn in *; subst; now constructor.
      - rewrite (inv_pend _ _ _ _ I). cbn [map activate]. destruct (Nat.eqb_spec (cl_n (fst i)) n) as [E|NE]; cbn [negb].
        + destruct (activate_one n acts i pend st I E) as [b [B1 B2]]. cbn [vbind].
          change (n_composites (i :: pend)) with (length (cl_sums (fst i)) + n_composites pend)%nat.
          rewrite <- Nat.add_assoc. apply (sound_sample F good _ _ b); auto. intros a Ha.
          apply (IH _ _ (B2 a Ha)).
        + cbn [vbind]. apply (HK acts (i :: pend)).
          * destruct st; destruct I; cbn in *; subst; now constructor.
          * assert (L : (cl_n (fst i) < n)%nat) by (pose proof (inv_pend_n _ _ _ _ I i (or_introl eq_refl)); lia).
            intros j [<-|Hj]; auto.
            pose proof (pend_sorted acts pend i (inv_insts _ _ _ _ I) j Hj). lia.
    Qed.

    Lemma activate_rest_sound {B} (good : B -> Prop) e k :
      forall chal,
      (forall acts st, Inv 0 acts [] st -> b_chal st = chal -> sound good e (k (b_coeffs st, b_sum st))) ->
      forall pend acts st, b_chal st = chal -> Inv 0 acts pend st ->
        sound good (n_composites pend + e)
          (vbind (activate_rest (b_pending st) (b_coeffs st) (b_sum st)) k).
    Proof.
      intros chal HK pend. induction pend as [|i pend IH]; intros acts st HC I.
      - rewrite (inv_pend _ _ _ _ I). cbn [map activate_rest vbind]. now apply (HK acts).
      - rewrite (inv_pend _ _ _ _ I). cbn [map activate_rest vbind].
        assert (E : cl_n (fst i) = 0%nat) by (pose proof (inv_pend_n _ _ _ _ I i (or_introl eq_refl)); lia).
        destruct (activate_one 0 acts i pend st I E) as [b [B1 B2]].
        change (n_composites (i :: pend)) with (length (cl_sums (fst i)) + n_composites pend)%nat.
        rewrite <- Nat.add_assoc. apply (sound_sample F good _ _ b); auto. intros a Ha.
        refine (IH _ _ _ (B2 a Ha)). exact HC.
    Qed.

    Hypothesis OKS : Forall inst_ok insts.

    Lemma T_poly n acts pend st : Inv (S n) acts pend st ->
      is_poly (S (b_deg st)) (fun x => T n acts (b_chal st ++ [x])) /\
      T n acts (b_chal st ++ [0]) + T n acts (b_chal st ++ [1]) = T (S n) acts (b_chal st).
    Proof.
      intros I. destruct I as [I1 I2 I3 I4 I5 I6 I7 I8 I9].
      assert (E : forall x, T n acts (b_chal st ++ [x]) = fsum (map (fun ia => TV o (fst ia) (snd ia) (own (S n) (fst ia) (b_chal st) ++ [x]) n) acts)).
      { intros x. unfold T. f_equal. apply map_ext_in. intros ia Hia. rewrite own_snoc; [reflexivity|now apply I6|].
        - rewrite I4. unfold max_vars. apply max_list_ge. apply (in_map (fun i => cl_n (fst i))).
          rewrite <- I1. apply in_app_iff. left. now apply in_map. }
      split.
      - eapply is_poly_ext; [exact E|]. apply (is_poly_fsum _ (fun ia x => TV o (fst ia) (snd ia) (own (S n) (fst ia) (b_chal st) ++ [x]) n)).
        intros ia Hia. apply is_poly_le with (n := S (max_individual_degree (fst (fst ia)))); [apply le_n_S; now apply I7|].
        apply TV_poly. rewrite Forall_forall in OKS. apply OKS. rewrite <- I1. apply in_app_iff. left. now apply in_map.
      - rewrite !E, <- fsum_map_add. unfold T. f_equal. apply map_ext. intros ia. now rewrite TV_step.
    Qed.

    Hypothesis DEG : max_vars insts = 0%nat \/
      exists i, In i insts /\ cl_n (fst i) = max_vars insts /\ (1 <= max_individual_degree (fst i))%nat.

    Lemma rounds_sound {B} (good : B -> Prop) e k :
      (forall acts' pend' st', Inv 0 acts' pend' st' -> sound good (n_composites pend' + e) (k st')) ->
      forall n pend acts st, Inv n acts pend st ->
        sound good (n_composites pend + (n * max_degree insts + e)) (vbind (rounds n st) k).
    Proof.
      intros HK n. induction n as [|n IH]; intros pend acts st I; cbn [rounds].
      - cbn [vbind]. now apply (HK acts pend).
      - apply sound_assoc. apply (activate_sound good (S n)) with (acts := acts); auto.
        clear I acts pend st. intros acts pend st I LT.
        apply sound_assoc. apply sound_bind_read. intros coeffs HL.
        assert (D1 : (1 <= b_deg st)%nat).
        { destruct DEG as [Z|[i [INI [EN DI]]]].
          - pose proof (inv_len _ _ _ _ I). lia.
          - rewrite <- (inv_insts _ _ _ _ I) in INI. apply in_app_iff in INI as [INI|INI].
            + apply in_map_iff in INI as [ia [<- Hia]]. pose proof (inv_deg _ _ _ _ I ia Hia). lia.
            + specialize (LT i INI). pose proof (inv_len _ _ _ _ I). lia. }
        apply sound_assoc.
        destruct (T_poly n acts pend st I) as [TP TE].
        assert (ST : exists b, at_most (b_deg st) b /\ forall x, b x = false ->
                  interpolate_round_proof coeffs (b_sum st) x <> T n acts (b_chal st ++ [x])
                  \/ exists i, In i pend /\ ~ claim_true i).
        { destruct (inv_bad _ _ _ _ I) as [N|X].
          - destruct (round_in F (fun x => T n acts (b_chal st ++ [x])) (b_sum st) (b_deg st) coeffs TP HL D1) as [b [B1 B2]].
            + now rewrite TE.
            + exists b. split; auto.
          - exists (fun _ => false). split; [apply at_most_none|]. auto. }
        destruct ST as [b [B1 B2]].
        apply (sound_mono F good good (max_degree insts + (n_composites pend + (n * max_degree insts + e)))); [|cbn; lia|auto].
        apply (sound_bind_sample F good _ _ b).
        { apply at_most_le with (d := b_deg st); auto. apply (inv_deg_max _ _ _ _ I). }
        intros x Hx. apply (IH pend acts). pose proof I as [I1 I2 I3 I4 I5 I6 I7 I8 I9]. constructor; cbn [b_pending b_coeffs b_chal b_sum b_deg]; auto.
        + rewrite app_length. cbn [length]. lia.
        + intros i Hi. specialize (LT i Hi). lia.
        + intros ia Hia. specialize (I6 ia Hia). lia.
    Qed.

    Lemma expected_multi_T acts pend st : Inv 0 acts pend st -> pend = [] ->
      expected_multi (b_coeffs st) (map fst insts)
        (map (fun i => mvals i (pt o (own 0 i (b_chal st)))) insts) = Ok (T 0 acts (b_chal st)).
    Proof.
      intros I ->. destruct I as [I1 I2 I3 I4 I5 I6 I7 I8 I9]. rewrite app_nil_r in I1. rewrite I3.
      rewrite <- I1. unfold T. rewrite <- I1 in OKS. clear -OKS.
      revert OKS. generalize (b_chal st) as chal. intros chal. induction acts as [|[i a] acts IH]; intros OKS; [reflexivity|].
      cbn [map expected_multi fst snd fsum]. cbn [map fst] in OKS. inversion OKS as [|? ? O1 O2]; subst.
      rewrite expected_single_ok by exact O1. cbn [rbind]. rewrite IH by exact O2. cbn [rbind].
      now rewrite TV_0.
    Qed.

    Lemma batch_verify_sound :
      (exists i, In i insts /\ ~ claim_true i) ->
      sound (fun out => ~ truthful o insts out) (n_composites insts + max_vars insts * max_degree insts)
        (batch_verify o (map fst insts)).
    Proof.
      intros BAD. unfold batch_verify. destruct (negb _) eqn:SO; [constructor|]. clear SO.
      rewrite (map_map fst cl_n).
      change (fold_right Nat.max 0%nat (map (fun x : inst F => cl_n (fst x)) insts)) with (max_vars insts).
      replace (max_vars insts * max_degree insts)%nat with (max_vars insts * max_degree insts + 0)%nat by lia.
      apply (rounds_sound _ 0) with (acts := []).
      2:{ constructor; cbn [b_pending b_coeffs b_chal b_sum b_deg map app]; auto; try (intros ? []).
          - intros i Hi. unfold max_vars. apply max_list_ge. now apply (in_map (fun i => cl_n (fst i))).
          - lia. }
      intros acts pend st I.
      eapply (activate_rest_sound _ 0); [intros acts' st' I' HC|reflexivity|exact I].
      apply read_evals_sound. intros evals. apply sound_bind0. intros expected HE.
      destruct (feqb_spec F (b_sum st') expected) as [ES|]; cbn [negb]; [|constructor].
      constructor. unfold truthful. cbn [fst snd]. intros TR.
      assert (EV : evals = map (fun i => mvals i (pt o (own 0 i (b_chal st')))) insts).
      { rewrite TR. apply map_ext. intros i. f_equal. rewrite <- HC. unfold own. rewrite Nat.sub_0_r.
        destruct o; cbn [suffix_point pt]; [reflexivity|]. now rewrite firstn_rev. }
      rewrite EV, (expected_multi_T acts' [] st' I' eq_refl) in HE. injection HE as HE.
      destruct (inv_bad _ _ _ _ I') as [N|[i [[] _]]]. congruence.
    Qed.
  End Batch.

  (* ---------------------------------------------------------------- *)
  (** The front-loaded verifier. *)
  Section Front.
    Variables (o : order) (insts : list (inst F)).
    Hypothesis OKS : Forall inst_ok insts.

    (** sum over the remaining instances, all of which took part in all rounds so far *)
    Definition TF (rem : list (inst F * F)) (chal : list F) : F :=
      fsum (map (fun ia => TV o (fst ia) (snd ia) chal (cl_n (fst (fst ia)) - length chal)) rem).

    Definition fvals (done : list (inst F)) (chal : list F) : list (list F) :=
      map (fun i => mvals i (pt o (firstn (cl_n (fst i)) chal))) done.

    Record FInv (done : list (inst F)) (rem : list (inst F * F)) (v : bverifier F) (sum : F) (chal : list F)
        (evals : list (list F)) : Prop :=
      { fi_insts : done ++ map fst rem = insts;
        fi_claims : v_claims v = with_degrees (map (fun ia : inst F * F => fst (fst ia)) rem) (map snd rem);
        fi_round : v_round v = length chal;
        fi_last : v_last v = SumV sum;
        fi_done : forall i, In i done -> (cl_n (fst i) <= length chal)%nat;
        fi_rem : forall ia, In ia rem -> (length chal <= cl_n (fst (fst ia)))%nat;
        fi_bad : evals = fvals done chal -> sum <> TF rem chal }.

    Lemma with_degrees_cons (c : claim F) cs a coeffs : exists d,
      with_degrees (c :: cs) (a :: coeffs) = (c, a, d) :: with_degrees cs coeffs /\
      d = Nat.max (max_individual_degree c) (match with_degrees cs coeffs with [] => 0%nat | (_, _, d') :: _ => d' end).
    Proof.
      cbn [with_degrees]. eexists. split; [reflexivity|]. destruct (with_degrees cs coeffs) as [|[[? ?] ?] ?]; lia.
    Qed.

    Lemma with_degrees_claims (cs : list (claim F)) coeffs : length cs = length coeffs ->
      map (fun x => fst (fst x)) (with_degrees cs coeffs) = cs.
    Proof.
      revert coeffs. induction cs as [|c cs IH]; intros [|a coeffs] E; try discriminate; [reflexivity|].
      destruct (with_degrees_cons c cs a coeffs) as [d [-> _]]. cbn [map fst]. f_equal. apply IH. now injection E.
    Qed.

    Lemma total_rounds_last (l : list (claim F * F * nat)) :
      match rev l with [] => 0%nat | (c, _, _) :: _ => cl_n c end = last (map cl_n (map (fun x => fst (fst x)) l)) 0%nat.
    Proof.
      destruct l as [|x l _] using rev_ind; [reflexivity|]. rewrite rev_app_distr, !map_app. cbn [rev app map].
      rewrite last_last. now destruct x as [[c a] d].
    Qed.

    Lemma asc_last (l : list nat) : StronglySorted le l -> last l 0%nat = fold_right Nat.max 0%nat l.
    Proof.
      induction 1 as [|a l S IH H]; [reflexivity|]. cbn [fold_right]. rewrite <- IH. destruct l as [|b l]; [cbn; lia|].
      change (last (a :: b :: l) 0%nat) with (last (b :: l) 0%nat). rewrite Forall_forall in H.
      assert (a <= last (b :: l) 0)%nat; [|lia]. apply H. destruct (exists_last (l := b :: l)) as [l' [z ->]]; [discriminate|].
      rewrite last_last. apply in_app_iff. right. now left.
    Qed.

    Lemma with_degrees_bound (rem : list (inst F * F)) c a d rest :
      with_degrees (map (fun ia : inst F * F => fst (fst ia)) rem) (map snd rem) = (c, a, d) :: rest ->
      (forall ia, In ia rem -> (max_individual_degree (fst (fst ia)) <= d)%nat) /\
      forall D, (forall ia, In ia rem -> (max_individual_degree (fst (fst ia)) <= D)%nat) -> (d <= D)%nat.
    Proof.
      revert c a d rest. induction rem as [|[i x] rem IH]; intros c a d rest E; [discriminate|].
      cbn [map fst snd] in E.
      destruct (with_degrees_cons (fst i) (map (fun ia : inst F * F => fst (fst ia)) rem) x (map snd rem)) as [d' [E' ED]].
      rewrite E' in E. injection E as <- <- <- <-.
      destruct (with_degrees (map (fun ia : inst F * F => fst (fst ia)) rem) (map snd rem)) as [|[[c2 a2] d2] r2] eqn:E2; rewrite ?E2 in ED.
      - destruct rem as [|[j y] rem]; [|cbn [map] in E2; discriminate E2]. split.
        + intros ia [<-|[]]. cbn [fst]. lia.
        + intros D HD. specialize (HD (i, x) (or_introl eq_refl)). cbn [fst] in HD. lia.
      - destruct (IH _ _ _ _ eq_refl) as [A1 A2]. split.
        + intros ia [<-|H]; [cbn [fst]; lia|]. specialize (A1 ia H). lia.
        + intros D HD. pose proof (HD (i, x) (or_introl eq_refl)) as H1. cbn [fst] in H1.
          assert (d2 <= D)%nat by (apply A2; intros; apply HD; now right). lia.
    Qed.

    Lemma finish_claims_sound {B} (good : B -> Prop) e chal k :
      (forall done rem v sum evals, FInv done rem v sum chal evals ->
         (forall ia, In ia rem -> (length chal < cl_n (fst (fst ia)))%nat) -> sound good e (k (v, evals))) ->
      StronglySorted le (map (fun i : inst F => cl_n (fst i)) insts) ->
      forall fuel done rem v sum evals, FInv done rem v sum chal evals ->
        sound good e (vbind (finish_claims fuel v evals) k).
    Proof.
      intros HK SA fuel. induction fuel as [|fuel IH]; intros done rem v sum evals I; cbn [finish_claims]; [constructor|].
      apply sound_assoc. unfold try_finish_claim. pose proof I as [I1 I2 I3 I4 I5 I6 I7]. rewrite I2.
      destruct rem as [|[i a] rem].
      - cbn [map with_degrees vbind]. apply (HK done [] v sum); auto. intros ia [].
      - cbn [map fst snd].
        destruct (with_degrees_cons (fst i) (map (fun ia : inst F * F => fst (fst ia)) rem) a (map snd rem)) as [d [-> _]].
        rewrite I3. destruct (Nat.compare_spec (cl_n (fst i)) (length chal)) as [E|L|G].
        + apply sound_assoc. apply sound_bind_read. intros el HL. rewrite I4.
          apply sound_assoc. apply sound_bind0. intros expected HE. cbn [vbind].
          apply (IH (done ++ [i]) rem _ (sum - expected)). constructor; cbn [v_claims v_round v_last]; auto.
          * rewrite <- app_assoc. exact I1.
          * intros j Hj. apply in_app_iff in Hj as [Hj|[<-|[]]]; auto. lia.
          * intros ia Hia. apply I6. now right.
          * intros EV. unfold fvals in EV. rewrite map_app in EV. cbn [map] in EV.
            apply app_inj_tail in EV as [EV EL]. specialize (I7 EV).
            assert (OI : inst_ok i).
            { rewrite Forall_forall in OKS. apply OKS. rewrite <- I1. apply in_app_iff. right. now left. }
            rewrite EL, E, firstn_all, expected_single_ok in HE by exact OI. apply (f_equal val) in HE. cbn [val] in HE.
            intros ES. apply I7. unfold TF. cbn [map fst snd fsum]. rewrite E, Nat.sub_diag, TV_0, HE.
            fold (TF rem chal). rewrite <- ES. ring.
        + constructor.
        + cbn [vbind]. apply (HK done ((i, a) :: rem) v sum); auto.
          intros ia [<-|Hia]; [exact G|].
          assert (L : (cl_n (fst i) <= cl_n (fst (fst ia)))%nat).
          { rewrite <- I1 in SA. rewrite map_app in SA. apply strongly_sorted_app in SA as [_ [S2 _]]. cbn [map fst] in S2.
            inversion S2 as [|? ? _ H]; subst. rewrite Forall_forall in H. apply (H (cl_n (fst (fst ia)))).
            rewrite map_map. now apply (in_map (fun ia : inst F * F => cl_n (fst (fst ia)))). }
          lia.
    Qed.

    Hypothesis SA : StronglySorted le (map (fun i : inst F => cl_n (fst i)) insts).
    Hypothesis DEG : max_vars insts = 0%nat \/
      exists i, In i insts /\ cl_n (fst i) = max_vars insts /\ (1 <= max_individual_degree (fst i))%nat.

    Lemma TF_poly done rem v sum chal evals : FInv done rem v sum chal evals ->
      (forall ia, In ia rem -> (length chal < cl_n (fst (fst ia)))%nat) ->
      forall d, (forall ia, In ia rem -> (max_individual_degree (fst (fst ia)) <= d)%nat) ->
      is_poly (S d) (fun x => TF rem (chal ++ [x])) /\
      TF rem (chal ++ [0]) + TF rem (chal ++ [1]) = TF rem chal.
    Proof.
      intros [I1 I2 I3 I4 I5 I6 I7] LT d HD.
      assert (E : forall x, TF rem (chal ++ [x]) =
        fsum (map (fun ia => TV o (fst ia) (snd ia) (chal ++ [x]) (cl_n (fst (fst ia)) - S (length chal))) rem)).
      { intros x. unfold TF. rewrite app_length. cbn [length]. now rewrite Nat.add_1_r. }
      split.
      - eapply is_poly_ext; [exact E|].
        apply (is_poly_fsum _ (fun ia x => TV o (fst ia) (snd ia) (chal ++ [x]) (cl_n (fst (fst ia)) - S (length chal)))).
        intros ia Hia. apply is_poly_le with (n := S (max_individual_degree (fst (fst ia)))); [apply le_n_S; now apply HD|].
        apply TV_poly. rewrite Forall_forall in OKS. apply OKS. rewrite <- I1. apply in_app_iff. right. now apply in_map.
      - rewrite !E, <- fsum_map_add. unfold TF. f_equal. apply map_ext_in. intros ia Hia. rewrite <- TV_step.
        specialize (LT ia Hia). f_equal. lia.
    Qed.

    Lemma fvals_snoc done chal x : (forall i, In i done -> (cl_n (fst i) <= length chal)%nat) ->
      fvals done (chal ++ [x]) = fvals done chal.
    Proof.
      intros H. apply map_ext_in. intros i Hi. specialize (H i Hi). do 2 f_equal. rewrite firstn_app.
      replace (cl_n (fst i) - length chal)%nat with 0%nat by lia. cbn [firstn]. apply app_nil_r.
    Qed.

    Lemma run_rounds_sound {B} (good : B -> Prop) e k :
      (forall done rem v sum chal evals, FInv done rem v sum chal evals -> length chal = max_vars insts ->
         sound good e (k (v, chal, evals))) ->
      forall n done rem v sum chal evals, FInv done rem v sum chal evals -> (n + length chal = max_vars insts)%nat ->
        sound good (n * max_degree insts + e) (vbind (run_rounds n v chal evals) k).
    Proof.
      intros HK n. induction n as [|n IH]; intros done rem v sum chal evals I LN; cbn [run_rounds].
      - cbn [vbind]. apply (HK done rem v sum); auto.
      - apply sound_assoc. apply (finish_claims_sound good _ chal) with (done := done) (rem := rem) (sum := sum); auto.
        clear I done rem v sum evals. intros done rem v sum evals I LT.
        pose proof I as [I1 I2 I3 I4 I5 I6 I7].
        destruct DEG as [Z|[i [INI [EN DI]]]]; [lia|].
        assert (IR : exists ia, In ia rem /\ fst ia = i).
        { rewrite <- I1 in INI. apply in_app_iff in INI as [INI|INI].
          - specialize (I5 i INI). lia.
          - apply in_map_iff in INI as [ia [E Hia]]. now exists ia. }
        destruct IR as [ia0 [IA0 IA1]].
        apply sound_assoc. unfold receive_round_proof. rewrite I4.
        destruct (v_claims v) as [|[[c a] d] rest] eqn:EV.
        { exfalso. destruct rem as [|[j y] rem]; [destruct IA0|]. cbn [map fst snd] in I2.
          destruct (with_degrees_cons (fst j) (map (fun ia : inst F * F => fst (fst ia)) rem) y (map snd rem)) as [d [E _]].
          congruence. }
        destruct (with_degrees_bound rem c a d rest (eq_sym I2)) as [DB1 DB2].
        destruct (cl_n c =? v_round v)%nat; [constructor|].
        apply sound_assoc. apply sound_bind_read. intros coeffs HL. cbn [vbind].
        destruct (TF_poly done rem v sum chal evals I LT d DB1) as [TP TE].
        assert (D1 : (1 <= d)%nat) by (specialize (DB1 ia0 IA0); rewrite IA1 in DB1; lia).
        assert (DM : (d <= max_degree insts)%nat).
        { apply DB2. intros ia Hia. unfold max_degree. apply max_list_ge.
          apply (in_map (fun i => max_individual_degree (fst i))). rewrite <- I1. apply in_app_iff. right. now apply in_map. }
        destruct (feq_dec F sum (TF rem chal)) as [EQ|NE].
        + (* the running sum is right, so the evaluations are not *)
          replace (S n * max_degree insts + e)%nat with (max_degree insts + (n * max_degree insts + e))%nat by lia.
          apply (sound_sample F good _ _ (fun _ => false)); [apply at_most_none|]. intros x _.
          cbn [finish_round v_last v_claims v_round vbind].
          apply (IH done rem _ (evaluate_univariate (recover coeffs sum) x)); [|rewrite app_length; cbn [length]; lia].
          constructor; cbn [v_claims v_round v_last]; auto.
          * rewrite app_length. cbn [length]. lia.
          * intros j Hj. rewrite app_length. specialize (I5 j Hj). lia.
          * intros ia Hia. rewrite app_length. cbn [length]. specialize (LT ia Hia). lia.
          * rewrite fvals_snoc by auto. intros EE. now specialize (I7 EE).
        + destruct (round_in F (fun x => TF rem (chal ++ [x])) sum d coeffs TP HL D1) as [b [B1 B2]]; [now rewrite TE|].
          replace (S n * max_degree insts + e)%nat with (max_degree insts + (n * max_degree insts + e))%nat by lia.
          apply (sound_sample F good _ _ b); [now apply at_most_le with (d := d)|]. intros x Hx.
          cbn [finish_round v_last v_claims v_round vbind].
          apply (IH done rem _ (evaluate_univariate (recover coeffs sum) x)); [|rewrite app_length; cbn [length]; lia].
          constructor; cbn [v_claims v_round v_last]; auto.
          * rewrite app_length. cbn [length]. lia.
          * intros j Hj. rewrite app_length. specialize (I5 j Hj). lia.
          * intros ia Hia. rewrite app_length. cbn [length]. specialize (LT ia Hia). lia.
          * intros _. apply (B2 x Hx).
    Qed.

    Lemma bv_run_sound rem v sum : FInv [] rem v sum [] [] ->
      sound (fun out => ~ truthful_front o insts out) (max_vars insts * max_degree insts) (bv_run v).
    Proof.
      intros I. unfold bv_run.
      assert (TR : total_rounds v = max_vars insts).
      { unfold total_rounds. rewrite (fi_claims _ _ _ _ _ _ I).
        assert (E : insts = map fst rem) by (symmetry; apply (fi_insts _ _ _ _ _ _ I)).
        assert (EC : map (fun x => fst (fst x)) (with_degrees (map (fun ia : inst F * F => fst (fst ia)) rem) (map snd rem))
                     = map fst insts).
        { rewrite with_degrees_claims by now rewrite !map_length. now rewrite E, map_map. }
        change (max_vars insts) with (fold_right Nat.max 0%nat (map (fun i : inst F => cl_n (fst i)) insts)).
        rewrite <- (asc_last (map (fun i : inst F => cl_n (fst i)) insts)) by exact SA.
        transitivity (last (map cl_n (map fst insts)) 0%nat); [rewrite <- EC; apply total_rounds_last|now rewrite map_map]. }
      rewrite TR, <- (Nat.add_0_r (_ * _)).
      apply (run_rounds_sound _ 0) with (done := []) (rem := rem) (sum := sum); auto.
      clear I rem v sum TR. intros done rem v sum chal evals I LN.
      apply (finish_claims_sound _ _ chal) with (done := done) (rem := rem) (sum := sum); auto.
      clear I done rem v sum evals. intros done rem v sum evals I LT.
      apply sound_bind0. intros u HU. constructor. unfold truthful_front. cbn [fst snd]. intros TRU.
      pose proof I as [I1 I2 I3 I4 I5 I6 I7].
      destruct rem as [|[i a] rem].
      2:{ specialize (LT (i, a) (or_introl eq_refl)). cbn [fst] in LT.
          assert (cl_n (fst i) <= max_vars insts)%nat; [|lia]. unfold max_vars. apply max_list_ge.
          apply (in_map (fun i => cl_n (fst i))). rewrite <- I1. apply in_app_iff. right. now left. }
      cbn [map] in I1. rewrite app_nil_r in I1. subst done.
      unfold bv_finish in HU. rewrite I2, I4 in HU. cbn [map with_degrees] in HU.
      destruct (feqb_spec F sum 0) as [ES|]; cbn [negb] in HU; [|discriminate].
      apply I7; [|exact ES]. rewrite TRU. apply map_ext. intros i. now destruct o.
    Qed.

    Lemma vsamples_sound {B} (good : B -> Prop) e : forall (is : list (inst F)) (s t : F) k,
      (s <> t \/ exists i, In i is /\ ~ claim_true i) ->
      (forall coeffs, length coeffs = length is ->
         s + fsum (map (fun ca => claim_sum (snd ca) (fst ca)) (combine (map fst is) coeffs)) <>
           t + fsum (map (fun ia => TV o (fst ia) (snd ia) [] (cl_n (fst (fst ia)))) (combine is coeffs)) ->
         sound good e (k coeffs)) ->
      sound good (n_composites is + e) (vbind (vsamples (length is)) k).
    Proof.
      induction is as [|i is IH]; intros s t k HB HK.
      - cbn [length vsamples vbind]. apply HK; [reflexivity|]. cbn [map combine fsum].
        destruct HB as [N|[i [[] _]]]. intros E. apply N. transitivity (s + 0); [ring|]. rewrite E. ring.
      - cbn [length vsamples vbind].
        change (n_composites (i :: is)) with (length (cl_sums (fst i)) + n_composites is)%nat.
        rewrite <- Nat.add_assoc.
        assert (X : exists b, at_most (length (cl_sums (fst i))) b /\
          forall a, b a = false -> s + claim_sum a (fst i) <> t + TV o i a [] (cl_n (fst i)) \/ exists j, In j is /\ ~ claim_true j).
        { destruct HB as [N|[j [[<-|Hj] NT]]].
          - destruct (batch_in F o i s t (or_introl N)) as [b [B1 B2]]. exists b. auto.
          - destruct (batch_in F o i s t (or_intror NT)) as [b [B1 B2]]. exists b. auto.
          - exists (fun _ => false). split; [apply at_most_none|]. intros a _. right. now exists j. }
        destruct X as [b [B1 B2]]. apply (sound_sample F good _ _ b); auto. intros a Ha.
        apply sound_assoc. apply (IH (s + claim_sum a (fst i)) (t + TV o i a [] (cl_n (fst i)))); auto.
        intros coeffs HL NE. cbn [vbind]. apply HK; [cbn [length]; lia|]. cbn [map combine fst snd fsum].
        intros E. apply NE. etransitivity; [|etransitivity; [exact E|]]; ring.
    Qed.
  End Front.
End Sound.
