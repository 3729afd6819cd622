(** C73: the work that an evaluation claim can cause, and how evalcheck moves it into its state. *)
Require Import Coq.setoid_ring.Ring Coq.Arith.Arith Coq.Lists.List Coq.Bool.Bool Lia.
From Verif Require Import Base.Fld Base.Lists Base.Sums Math.MleSpec Math.MleModel Math.ArithModel Math.ArithProofs
  Field.Quad Field.TowerProofs Transparent.TransparentModel Transparent.TransparentProps Transparent.TowerBasisProps
  Transparent.ShiftModel Transparent.ShiftProps Protocol.Proto Protocol.Soundness
  Evalcheck.OracleModel Evalcheck.EvalModel Evalcheck.EvalSpec Evalcheck.EvalMle Evalcheck.EvalProofs
  Evalcheck.EvalReduce Evalcheck.EvalExtend Evalcheck.EvalSound Sumcheck.SumcheckModel Evalcheck.GreedyModel Evalcheck.GreedyComp.
Import ListNotations.

Section Spec.
  Variable L : nat.
  Notation F := (TF L).
  (** a bound on the degrees of the composite oracles *)
  Variable D : nat.

  (** The composition is compiled to a polynomial with its values and of degree at most [D], whatever oracles its variables
      stand for (see C68 for circuits on which this fails). *)
  Definition composable (circ : circuit F) : Prop :=
    forall pos n c k, remap_vars circ pos = Ok c -> circuit_comp n c = Ok k -> (c_deg k <= D)%nat /\ faithful L n c k.

  (** The soundness error spent on one claim about an oracle, if nothing is shared between claims: a shifted or packed oracle
      costs one composite claim of degree two over the variables of its block, a composite oracle one of degree [D + 1] over its
      variables, and then the claims about the oracles they refer to. *)
  Definition step_work (w : nat -> nat) (o : oracle L) : nat :=
    match o_variant o with
    | Committed | Transparent _ | Structured _ => 0
    | Repeating i _ | Projected i _ _ | ZeroPadded i _ _ _ => w i
    | Shifted i _ b _ => 1 + 2 * b + w i
    | Packed i d => 1 + 2 * d + w i
    | LinearCombination _ _ inner => list_sum (map (fun ic => w (fst ic)) inner)
    | Composite _ ids _ => 1 + o_nvars o * (D + 1) + list_sum (map w ids)
    end.
  Definition next_work (ws : list nat) (oo : option (oracle L)) : list nat :=
    ws ++ [match oo with Some o => step_work (fun i => nth i ws 0) o | None => 0 end].
  Definition works (os : oset L) : list nat := fold_left next_work os [].
  Definition work (os : oset L) (id : nat) : nat := nth id (works os) 0.

  (** The same for the state of evalcheck. *)
  Definition ids_work (os : oset L) (ids : list nat) : nat := list_sum (map (work os) ids).
  Definition builder_work (os : oset L) (k : nat) (b : builder L) : nat :=
    list_sum (map (fun u => 1 + k + ids_work os (u_ids u)) b).
  Fixpoint sums_work (os : oset L) (n : nat) (bs : list (builder L)) : nat :=
    match bs with
    | [] => 0
    | b :: bs => builder_work os (2 * n) b + sums_work os (S n) bs
    end.
  Definition mles_work (os : oset L) (ms : list (list F * builder L)) : nat :=
    list_sum (map (fun pb => builder_work os (length (fst pb) * (D + 1)) (snd pb)) ms).
  Definition state_work (st : vstate L) : nat :=
    sums_work (st_oracles st) 0 (st_sums st) + mles_work (st_oracles st) (st_mles st).

  (** Deferred sums are of products of two oracles, deferred compositions are composable, and the claims left to the caller
      are about committed oracles. *)
  Definition composable_set (os : oset L) : Prop :=
    forall id o m ids c, nth_error os id = Some (Some o) -> o_variant o = Composite m ids c -> composable c.
  Definition tracked (st : vstate L) : Prop :=
    (forall n b u, nth_error (st_sums st) n = Some b -> In u b -> exists i j, u_ids u = [i; j] /\ u_comp u = bivariate_product) /\
    (forall p b u, In (p, b) (st_mles st) -> In u b -> composable (u_comp u)) /\
    composable_set (st_oracles st) /\
    (forall c, In c (st_committed st) -> exists o, nth_error (st_oracles st) (c_id c) = Some (Some o) /\ o_variant o = Committed).
  (** Oracles added on the way are not committed. *)
  Definition derived (ext : oset L) : Prop := forall o, In (Some o) ext -> o_variant o <> Committed.
End Spec.
Arguments step_work {_} _ _ _.
Arguments next_work {_} _ _ _.
Arguments works {_} _ _.
Arguments work {_} _ _ _.
Arguments ids_work {_} _ _ _.
Arguments builder_work {_} _ _ _ _.
Arguments sums_work {_} _ _ _ _.
Arguments mles_work {_} _ _ _.
Arguments state_work {_} _ _.
Arguments composable {_} _ _.
Arguments composable_set {_} _ _.
Arguments tracked {_} _ _.
Arguments derived {_} _.

Section Sound0.
  Variable F : field.
  Lemma sound0_and {A} (P Q : A -> Prop) e (p : vproto F A) : sound P 0 p -> sound Q e p -> sound (fun a => P a /\ Q a) e p.
  Proof.
    intros H0 H. induction H as [e|e|e a H|e n k H IH|d e b k HB H IH]; try (constructor; fail).
    - constructor. split; auto. now inversion H0.
    - constructor. intros l Hl. apply IH; auto. inversion H0; subst. auto.
    - apply (sound_sample F _ d e b); auto. intros c Hc. apply IH; auto. clear -H0.
      inversion H0 as [| | | |d e b k' HB HK EE EK]; subst. assert (d = 0 /\ e = 0)%nat as [-> ->] by lia.
      apply HK. destruct (b c) eqn:B; auto. assert (K : (length [c] <= 0)%nat); [|cbn in K; lia].
      apply HB; [repeat constructor; intros []|intros y [<-|[]]; auto].
  Qed.
End Sound0.

Section Work.
  Variable L D : nat.
  Notation F := (TF L).
  Notation oset := (oset L).

  Lemma works_snoc (os : oset) oo : works D (os ++ [oo]) = works D os ++ [match oo with Some o => step_work D (work D os) o | None => 0 end].
  Proof. unfold works. rewrite fold_left_app. reflexivity. Qed.
  Lemma works_length (os : oset) : length (works D os) = length os.
  Proof. induction os as [|oo os IH] using rev_ind; [reflexivity|]. rewrite works_snoc, !app_length, IH. reflexivity. Qed.
  Lemma work_app (os ext : oset) id : id < length os -> work D (os ++ ext) id = work D os id.
  Proof.
    intros H. induction ext as [|oo ext IH] using rev_ind; [now rewrite app_nil_r|].
    unfold work in *. rewrite app_assoc, works_snoc, app_nth1; auto. rewrite works_length, app_length. lia.
  Qed.
  Lemma work_last (os : oset) o : work D (os ++ [Some o]) (length os) = step_work D (work D os) o.
  Proof. unfold work at 1. rewrite works_snoc, app_nth2, works_length, Nat.sub_diag by (rewrite works_length; auto). reflexivity. Qed.

  Lemma sum_ext {A} (f g : A -> nat) l : (forall x, In x l -> f x = g x) -> list_sum (map f l) = list_sum (map g l).
  Proof. induction l as [|x l IH]; intros H; auto. cbn [map list_sum fold_right]. change (fold_right Nat.add 0 ?l) with (list_sum l). rewrite (H x (or_introl eq_refl)), IH; auto. intros; apply H; now right. Qed.

  Lemma step_work_ext (os : oset) (w w' : nat -> nat) id o : variant_ok os id (o_nvars o) (o_variant o) ->
    (forall i, i < id -> w i = w' i) -> step_work D w o = step_work D w' o.
  Proof.
    intros K H. unfold step_work. destruct (o_variant o) as [|poly|circ|i k|i vs s|i off b sv|i d|m off inner|i pad nz s|m ids circ]; cbn [variant_ok] in K; auto.
    - apply H, K.
    - apply H, K.
    - f_equal. apply H, K.
    - f_equal. apply H, K.
    - apply sum_ext. intros [i c] Hi. apply H. now apply (proj2 K i c).
    - apply H, K.
    - f_equal. apply sum_ext. intros i Hi. apply H. now apply (proj1 (proj2 K) i).
  Qed.

  Lemma work_step (os : oset) id o : oset_ok os -> nth_error os id = Some (Some o) -> work D os id = step_work D (work D os) o.
  Proof.
    intros HO E. assert (HL : id < length os) by (apply nth_error_Some; congruence).
    destruct (nth_error_split _ _ E) as (os1 & os2 & Eos & Len). subst id.
    rewrite Eos at 1. change (Some o :: os2) with ([Some o] ++ os2). rewrite app_assoc, work_app by (rewrite app_length; cbn; lia).
    rewrite work_last. apply (step_work_ext os _ _ (length os1)); [now apply HO|]. intros i Hi. rewrite Eos. symmetry. now apply work_app.
  Qed.

  Lemma ids_work_app (os ext : oset) ids : (forall i, In i ids -> i < length os) -> ids_work D (os ++ ext) ids = ids_work D os ids.
  Proof. intros H. apply sum_ext. intros i Hi. apply work_app. auto. Qed.

  Lemma builder_work_app (os ext : oset) k b : (forall u i, In u b -> In i (u_ids u) -> i < length os) ->
    builder_work D (os ++ ext) k b = builder_work D os k b.
  Proof. intros H. apply sum_ext. intros u Hu. rewrite ids_work_app; auto. intros i Hi. eauto. Qed.

  Lemma sums_work_app (os ext : oset) bs : (forall b u i, In b bs -> In u b -> In i (u_ids u) -> i < length os) ->
    forall n, sums_work D (os ++ ext) n bs = sums_work D os n bs.
  Proof.
    induction bs as [|b bs IH]; intros H n; cbn [sums_work]; auto. rewrite IH by (intros; eapply H; eauto; now right).
    rewrite builder_work_app; auto. intros u i Hu Hi. apply (H b u i); auto. now left.
  Qed.
  Lemma mles_work_app (os ext : oset) ms : (forall p b u i, In (p, b) ms -> In u b -> In i (u_ids u) -> i < length os) ->
    mles_work D (os ++ ext) ms = mles_work D os ms.
  Proof. intros H. apply sum_ext. intros [p b] Hp. cbn [fst snd]. apply builder_work_app. intros u i Hu Hi. eauto. Qed.

  Lemma exists_lt (os : oset) i : (exists o, nth_error os i = Some (Some o)) -> i < length os.
  Proof. intros [o E]. apply nth_error_Some. congruence. Qed.

  Lemma state_work_app (st : vstate L) ext : vstate_ok st ->
    state_work D (set_oracles (st_oracles st ++ ext) st) = state_work D st.
  Proof.
    intros (_ & HS & HM & _). unfold state_work. cbn [set_oracles st_oracles st_sums st_mles]. f_equal.
    - apply sums_work_app. intros b u i Hb Hu Hi. apply In_nth_error in Hb as [n Eb]. destruct (HS n b u Eb Hu) as [(_ & _ & _ & K) _].
      destruct (K i Hi) as (o & Eo & _). apply exists_lt. eauto.
    - apply mles_work_app. intros p b u i Hb Hu Hi. destruct (HM p b u Hb Hu) as (_ & _ & _ & K).
      destruct (K i Hi) as (o & Eo & _). apply exists_lt. eauto.
  Qed.

  Lemma list_sum_cons a l : list_sum (a :: l) = a + list_sum l.
  Proof. reflexivity. Qed.
  Lemma builder_work_snoc (os : oset) k b u : builder_work D os k (b ++ [u]) = builder_work D os k b + (1 + k + ids_work D os (u_ids u)).
  Proof. unfold builder_work. rewrite map_app, list_sum_app. cbn [map list_sum fold_right]. lia. Qed.

  Lemma sums_work_pad (os : oset) j : forall bs n, sums_work D os n (bs ++ repeat [] j) = sums_work D os n bs.
  Proof.
    induction bs as [|b bs IH]; intros n; cbn [app sums_work]; auto.
    revert n. induction j as [|j IHj]; intros n; cbn [repeat sums_work]; auto. rewrite IHj. reflexivity.
  Qed.
  Lemma sums_work_upd (os : oset) u : forall bs k n b, nth_error bs k = Some b ->
    sums_work D os n (upd bs k (b ++ [u])) = sums_work D os n bs + (1 + 2 * (n + k) + ids_work D os (u_ids u)).
  Proof.
    induction bs as [|b0 bs IH]; intros [|k] n b E; try discriminate; cbn [upd sums_work].
    - injection E as ->. rewrite builder_work_snoc. rewrite Nat.add_0_r. lia.
    - cbn [nth_error] in E. rewrite (IH k (S n) b E). replace (S n + k) with (n + S k) by lia. lia.
  Qed.
  Lemma add_bivariate_work (os : oset) m bs n (e : F) :
    sums_work D os 0 (add_bivariate_sumcheck m bs n e) = sums_work D os 0 bs + (1 + 2 * n + ids_work D os [fst m; snd m]).
  Proof.
    unfold add_bivariate_sumcheck, add_sumcheck. set (bs' := bs ++ repeat [] (S n - length bs)).
    assert (LT : n < length bs') by (unfold bs'; rewrite app_length, repeat_length; lia).
    rewrite (sums_work_upd _ _ _ n 0 (nth n bs' [])); [|now apply nth_error_nth'].
    unfold bs'. rewrite sums_work_pad. reflexivity.
  Qed.

  Lemma mles_work_upd (os : oset) u : forall ms k p b, nth_error ms k = Some (p, b) ->
    mles_work D os (upd ms k (p, b ++ [u])) = mles_work D os ms + (1 + length p * (D + 1) + ids_work D os (u_ids u)).
  Proof.
    unfold mles_work. induction ms as [|m ms IH]; intros [|k] p b E; try discriminate; cbn [upd map]; rewrite !list_sum_cons.
    - injection E as ->. cbn [fst snd]. rewrite builder_work_snoc. lia.
    - cbn [nth_error] in E. rewrite (IH k p b E). lia.
  Qed.
  Lemma add_composite_work (os : oset) pos p ms ids c (e : F) : (forall q b, nth_error ms pos = Some (q, b) -> q = p) ->
    mles_work D os (add_composite_sumcheck pos p ms ids c e) = mles_work D os ms + (1 + length p * (D + 1) + ids_work D os ids).
  Proof.
    intros H. unfold add_composite_sumcheck, add_sumcheck. destruct (nth_error ms pos) as [[q b]|] eqn:E.
    - rewrite (H q b eq_refl) in *. rewrite (mles_work_upd _ _ _ _ _ _ E). reflexivity.
    - unfold mles_work. rewrite map_app, list_sum_app. cbn [map fst snd app]. rewrite list_sum_cons. unfold builder_work at 2. cbn [map list_sum fold_right u_ids]. lia.
  Qed.

  (** * Evalcheck *)
  Variable u32 : F -> nat.

  Definition after (st : vstate L) (w : nat) (st' : vstate L) : Prop :=
    vstate_ok st' /\ (exists ext, st_oracles st' = st_oracles st ++ ext /\ derived ext) /\ tracked D st' /\
    state_work D st' <= state_work D st + w.

  Lemma after_refl st w : vstate_ok st -> tracked D st -> after st w st.
  Proof. intros H T. split; auto. split; [exists []; rewrite app_nil_r; split; auto; intros ? []|]. split; auto. lia. Qed.

  Lemma after_trans a b c w w' : after a w b -> after b w' c -> after a (w + w') c.
  Proof.
    intros (_ & (e1 & E1 & D1) & _ & W1) (K & (e2 & E2 & D2) & T & W2). split; auto. split; [exists (e1 ++ e2); rewrite E2, E1, app_assoc; split; auto|].
    - intros o HI. apply in_app_iff in HI as [HI|HI]; auto.
    - split; auto. lia.
  Qed.

  Section Variants.
    Variable rec : EvalModel.claim L -> vstate L -> vproto F (vstate L).
    Variable n : nat.
    Hypothesis REC : forall c st, c_id c < n -> vstate_ok st -> tracked D st -> claim_sized (st_oracles st) c ->
      sound (after st (work D (st_oracles st) (c_id c))) 0 (rec c st).

    Lemma multilinear_work c st : c_id c < n -> vstate_ok st -> tracked D st -> claim_sized (st_oracles st) c ->
      sound (after st (work D (st_oracles st) (c_id c))) 0 (verify_multilinear u32 rec c st).
    Proof.
      intros Hc HS HT HZ. unfold verify_multilinear. apply read_hint_sound; [|now apply REC].
      intros i. destruct (nth_error (st_round st) i) as [d|]; [|constructor]. destruct (claim_eqb d c); constructor. now apply after_refl.
    Qed.

    Lemma subclaims_work p ids : forall st, vstate_ok st -> tracked D st ->
      (forall id, In id ids -> id < n /\ exists o, nth_error (st_oracles st) id = Some (Some o) /\ length p = o_nvars o) ->
      sound (fun x => after st (ids_work D (st_oracles st) ids) (snd x)) 0 (verify_subclaims u32 rec ids p st).
    Proof.
      induction ids as [|id ids IH]; intros st HS HT HI; cbn [verify_subclaims].
      - constructor. cbn [snd]. now apply after_refl.
      - destruct (HI id (or_introl eq_refl)) as [Hid Hz].
        apply (sound_bind F (fun x => after st (work D (st_oracles st) id) (snd x)) _ 0 0).
        + unfold verify_subclaim. apply read_hint_sound.
          * intros i. destruct (nth_error (st_round st) i) as [d|]; [|constructor].
            destruct (negb _ || negb _); constructor. cbn [snd]. now apply after_refl.
          * unfold read_scalar. cbn [vbind]. constructor. intros l _.
            eapply (sound_bind F _ _ 0 0); [apply (REC (EvalModel.mkClaim id p (hd f0 l)) st); auto|].
            intros st' A. constructor. exact A.
        + intros [e st1] A1. cbn [snd] in A1. destruct A1 as (K1 & (ext1 & E1 & D1) & T1 & W1). cbn [fst snd].
          eapply (sound_bind F _ _ 0 0).
          * apply IH; auto. intros i Hi. destruct (HI i (or_intror Hi)) as (H1 & o & Eo & HL). split; auto. exists o. split; auto.
            rewrite E1. now apply nth_error_grow.
          * intros [es st2] A2. cbn [fst snd] in *. constructor. cbn [snd].
            assert (EW : ids_work D (st_oracles st1) ids = ids_work D (st_oracles st) ids).
            { rewrite E1. apply ids_work_app. intros i Hi. destruct (HI i (or_intror Hi)) as (_ & o & Eo & _). apply exists_lt. eauto. }
            rewrite EW in A2. unfold ids_work. cbn [map]. rewrite list_sum_cons. apply (after_trans st st1 st2); auto.
            split; auto. split; [exists ext1; auto|]. split; auto.
    Qed.
  End Variants.

  Lemma tracked_sums (st : vstate L) m d e ext : tracked D st -> composable_set D (st_oracles st ++ ext) ->
    tracked D (set_sums (add_bivariate_sumcheck m (st_sums st) d e) (set_oracles (st_oracles st ++ ext) st)).
  Proof.
    intros (T1 & T2 & T3 & T4) HC. split; [|split; [exact T2|split; [exact HC|]]].
    2:{ intros c HI. destruct (T4 c HI) as (o & Eo & Ev). exists o. split; auto. now apply nth_error_grow. }
    cbn [set_sums set_oracles st_sums].
    intros k b u E Hu. apply (add_bivariate_spec L _ _ _ _ _ _ E) in Hu. destruct Hu as [Hu|[-> ->]]; [|cbn [u_ids u_comp]; eauto].
    destruct (nth_error (st_sums st) k) as [b'|] eqn:E'.
    - erewrite nth_error_nth in Hu by exact E'. eauto.
    - apply nth_error_None in E'. rewrite nth_overflow in Hu by auto. destruct Hu.
  Qed.

  Lemma composable_meta (os : oset) i k o p m : composable_set D os -> composable_set D (os ++ meta_ext L os i k o p m).
  Proof.
    intros H id o' mm ids c E EV. destruct (Nat.lt_ge_cases id (length os)) as [Hl|Hl].
    - rewrite nth_error_app1 in E by auto. eapply H; eauto.
    - rewrite nth_error_app2 in E by auto. apply nth_error_In in E. unfold meta_ext in E. apply in_app_iff in E.
      destruct E as [E|[E|[]]]; [destruct (_ <? _); [destruct E as [E|[]]|destruct E]|]; injection E as <-; discriminate.
  Qed.

  Lemma meta_work (os : oset) i k o p m : i < length os ->
    ids_work D (os ++ meta_ext L os i k o p m) [if k <? o_nvars o then length os else i; length os + if k <? o_nvars o then 1 else 0] = work D os i.
  Proof.
    intros Hi. unfold meta_ext, ids_work. destruct (k <? o_nvars o); cbn [map app].
    - rewrite !list_sum_cons. cbn [list_sum fold_right].
      set (o1 := mkOracle _ _ (Projected _ _ _)). set (o2 := mkOracle _ _ (Transparent _)).
      replace (os ++ [Some o1; Some o2]) with ((os ++ [Some o1]) ++ [Some o2]) by now rewrite <- app_assoc.
      rewrite work_app by (rewrite app_length; cbn; lia). rewrite work_last.
      replace (length os + 1) with (length (os ++ [Some o1])) by (rewrite app_length; reflexivity). rewrite work_last.
      unfold step_work, o1, o2. cbn [o_variant]. lia.
    - rewrite Nat.add_0_r. set (o2 := mkOracle _ _ (Transparent _)). rewrite !list_sum_cons. cbn [list_sum fold_right].
      rewrite work_app, work_last by auto. unfold step_work, o2. cbn [o_variant]. lia.
  Qed.

  (** Recording a deferred product. *)
  Lemma bivariate_work (st : vstate L) i k o p q e d x : vstate_ok st -> tracked D st -> i < length (st_oracles st) ->
    x = (st_oracles st ++ meta_ext L (st_oracles st) i k o p q,
         (if k <? o_nvars o then length (st_oracles st) else i, length (st_oracles st) + if k <? o_nvars o then 1 else 0)) ->
    let st' := set_sums (add_bivariate_sumcheck (snd x) (st_sums st) d e) (set_oracles (fst x) st) in
    (exists ext, st_oracles st' = st_oracles st ++ ext /\ derived ext) /\
    tracked D st' /\ state_work D st' = state_work D st + (1 + 2 * d + work D (st_oracles st) i).
  Proof.
    intros HS HT Hi -> st'. cbn [fst snd] in st'. split; [|split].
    - eexists. split; [reflexivity|]. intros o' HI. unfold meta_ext in HI. apply in_app_iff in HI.
      destruct HI as [HI|[HI|[]]]; [destruct (_ <? _); [destruct HI as [HI|[]]|destruct HI]|]; injection HI as <-; discriminate.
    - apply tracked_sums; auto. apply composable_meta. apply HT.
    - assert (A := state_work_app st (meta_ext L (st_oracles st) i k o p q) HS). unfold state_work in *.
      unfold st'. cbn [set_sums set_oracles st_oracles st_sums st_mles] in *. rewrite add_bivariate_work. cbn [fst snd]. rewrite meta_work by auto. lia.
  Qed.

  Lemma skip_work fuel : forall c st, c_id c < fuel -> vstate_ok st -> tracked D st -> claim_sized (st_oracles st) c ->
    sound (after st (work D (st_oracles st) (c_id c))) 0 (verify_skip u32 fuel c st).
  Proof.
    induction fuel as [|fuel IH]; intros c st Hc HS HT HZ; [lia|].
    assert (SS := skip_sound L u32 (S fuel) c st Hc HS HZ).
    apply (sound_mono F (fun st' => checked L (S (c_id c)) st c st' /\ ((exists ext, st_oracles st' = st_oracles st ++ ext /\ derived ext) /\ tracked D st' /\ state_work D st' <= state_work D st + work D (st_oracles st) (c_id c))) _ 0 0); auto.
    2:{ intros st' ((((K & _) & _) & _) & X & T & W). split; auto. }
    apply sound0_and; [exact SS|]. clear SS. destruct HZ as (o & E & HP). cbn [verify_skip].
    set (st1 := set_round (st_round st ++ [c]) st). rewrite (oget_ok L _ _ _ E : oget (st_oracles st1) (c_id c) = Ok o). cbn [vbind].
    assert (HO := proj1 HS _ _ E). rewrite (work_step _ _ _ (proj1 HS) E). unfold step_work. set (p := c_point c) in *.
    assert (SELF : forall st' : vstate L, st_oracles st' = st_oracles st -> tracked D st' -> state_work D st' = state_work D st -> forall w,
      (exists ext, st_oracles st' = st_oracles st ++ ext /\ derived ext) /\ tracked D st' /\ state_work D st' <= state_work D st + w).
    { intros st' EO T W w. split; [exists []; rewrite app_nil_r; split; auto; intros ? []|]. split; auto. lia. }
    assert (T1 : tracked D st1) by exact HT. assert (S1 : vstate_ok st1) by exact HS. assert (W1 : state_work D st1 = state_work D st) by reflexivity.
    assert (RED : forall c' w, refers (st_oracles st) (c_id c) (c_id c') (length (c_point c')) -> w = work D (st_oracles st) (c_id c') ->
      sound (fun st' => (exists ext, st_oracles st' = st_oracles st ++ ext /\ derived ext) /\ tracked D st' /\ state_work D st' <= state_work D st + w) 0 (verify_multilinear u32 (verify_skip u32 fuel) c' st1)).
    { intros c' w (Hlt & oi & Ei & En) ->. eapply (sound_mono F _ _ 0 0);
        [apply (multilinear_work (verify_skip u32 fuel) (c_id c)); auto; try (intros c2 st2 Hc2 K1 K2 K3; apply IH; auto; lia); exists oi; auto|auto|].
      intros st' (_ & X & T & W). split; [exact X|]. split; [exact T|]. exact W. }
    destruct (o_variant o) as [|poly|circ|i k|i vs s|i off b sv|i d|m off inner|i pad nz s|m ids circ] eqn:EV;
      cbn [verify_variant variant_ok] in *; fold p.
    - constructor. apply SELF; [reflexivity| |reflexivity]. destruct HT as (K1 & K2 & K3 & K4). split; [exact K1|]. split; [exact K2|].
      split; [exact K3|]. cbn [push_committed st_committed st_oracles st1 set_round]. intros c' HI. apply in_app_iff in HI as [HI|[<-|[]]]; eauto.
    - destruct (mv_eval poly p) as [v| |]; cbn [vbind]; try constructor. destruct (feqb v (EvalModel.c_eval c)); constructor. now apply SELF.
    - destruct (n_vars circ <? length p); [constructor|]. destruct (evaluate circ _) as [v|]; [|constructor].
      destruct (feqb v (EvalModel.c_eval c)); constructor. now apply SELF.
    - destruct HO as [Hk HR]. rewrite (proj2 (Nat.ltb_ge _ _)) by lia. apply RED; [|reflexivity].
      cbn [c_id c_point]. rewrite firstn_length. replace (Nat.min _ _) with (o_nvars o - k)%nat by lia. exact HR.
    - destruct HO as [Hs HR]. rewrite (proj2 (Nat.ltb_ge _ _)) by lia. apply RED; [|reflexivity].
      cbn [c_id c_point]. rewrite !app_length, firstn_length, skipn_length.
      replace (Nat.min s (length p) + (length vs + (length p - s)))%nat with (o_nvars o + length vs)%nat by lia. exact HR.
    - destruct HO as [[Hb Ho] (Hlt & oi & Ei & En)]. unfold shifted_sumcheck_meta.
      rewrite (meta_eq L _ i b oi) by (auto; cbn [st1 set_round st_oracles]; lia || auto).
      destruct (shift_new b off sv (firstn b p)) as [sh| |]; cbn [rbind vbind]; try constructor.
      destruct (L <? _); cbn [vbind]; try constructor.
      edestruct (bivariate_work st1 i b oi p) as (B0 & B1 & B2); [exact S1|exact T1|apply exists_lt; eauto|reflexivity|].
      split; [exact B0|]. split; [exact B1|]. etransitivity; [apply Nat.eq_le_incl, B2|]. rewrite W1. cbn [st1 set_round st_oracles]. lia.
    - destruct HO as (Hlt & oi & Ei & En). unfold packed_sumcheck_meta, n_vars_of, level_of.
      change (st_oracles st1) with (st_oracles st). rewrite (oget_ok L _ _ _ Ei). cbn [rbind].
      destruct (o_nvars oi <? d); cbn [vbind]; [constructor|].
      rewrite (meta_eq L _ i 0 oi) by (auto; lia).
      destruct (tower_basis_new L d (o_level oi)) as [tb| |]; cbn [rbind vbind]; try constructor.
      destruct (L <? _); cbn [vbind]; try constructor.
      edestruct (bivariate_work st1 i 0 oi p) as (B0 & B1 & B2); [exact S1|exact T1|apply exists_lt; eauto|reflexivity|].
      split; [exact B0|]. split; [exact B1|]. etransitivity; [apply Nat.eq_le_incl, B2|]. rewrite W1. cbn [st1 set_round st_oracles]. lia.
    - destruct HO as [Hm HR].
      eapply (sound_bind F _ _ 0 0).
      + apply (subclaims_work (verify_skip u32 fuel) (c_id c)); auto.
        * intros c2 st2 Hc2 K1 K2 K3. apply IH; auto. lia.
        * intros id HI. apply in_map_iff in HI. destruct HI as ([i a] & <- & HI).
          destruct (HR i a HI) as (Hlt & oi & Ei & En). cbn [fst]. split; auto. exists oi. split; auto. congruence.
      + intros [evals st'] A. cbn [fst snd] in *. destruct (feqb _ _); constructor. destruct A as (_ & X & T & W). split; auto. split; auto.
        unfold ids_work in W. rewrite map_map in W. exact W.
    - destruct HO as [Hs HR]. rewrite (proj2 (Nat.ltb_ge _ _)) by lia.
      destruct (select_row_new _ nz) as [sr| |]; cbn [vbind]; try constructor.
      destruct (mv_eval _ _) as [t| |]; try constructor. destruct (feqb t f0).
      + destruct (feqb (EvalModel.c_eval c) f0); constructor. now apply SELF.
      + apply RED; [|reflexivity]. cbn [c_id c_point]. rewrite app_length, firstn_length, skipn_length.
        replace (Nat.min s (length p) + (length p - (s + pad)))%nat with (o_nvars o - pad)%nat by lia. exact HR.
    - apply read_u32_sound. intros pos.
      assert (STEP : (forall q' b', nth_error (st_mles st1) pos = Some (q', b') -> q' = p) ->
        let st' := set_mles (add_composite_sumcheck pos p (st_mles st1) ids circ (EvalModel.c_eval c)) st1 in
        (exists ext, st_oracles st' = st_oracles st ++ ext /\ derived ext) /\
        tracked D st' /\ state_work D st' <= state_work D st + (1 + o_nvars o * (D + 1) + list_sum (map (work D (st_oracles st)) ids))).
      { intros HQ st'. split; [|split].
        - exists []. rewrite app_nil_r. split; [reflexivity|intros ? []].
        - destruct HT as (K1 & K2 & K3 & K4). split; [exact K1|]. split; [|split; [exact K3|exact K4]]. intros q b u HI Hu.
          destruct (add_composite_spec L _ _ _ _ _ _ _ _ _ HQ HI Hu) as [(b' & HI' & Hu')|[-> ->]]; [eauto|]. cbn [u_comp].
          eapply K3; eauto.
        - unfold state_work, st'. cbn [set_mles st1 set_round st_mles st_sums st_oracles]. rewrite add_composite_work by exact HQ.
          unfold ids_work. rewrite HP. lia. }
      destruct (nth_error (st_mles st1) pos) as [[q b]|] eqn:EQ.
      + destruct (point_eqb q p) eqn:EP; cbn [negb]; [|constructor]. apply point_eqb_eq in EP. constructor. apply STEP. congruence.
      + constructor. apply STEP. congruence.
  Qed.

  Definition claims_work (os : oset) (claims : list (EvalModel.claim L)) : nat := ids_work D os (map c_id claims).

  Lemma loop_work claims : forall st, vstate_ok st -> tracked D st -> (forall c, In c claims -> claim_sized (st_oracles st) c) ->
    sound (after st (claims_work (st_oracles st) claims)) 0 (verify_loop u32 claims st).
  Proof.
    induction claims as [|c claims IH]; intros st HS HT HC; cbn [verify_loop].
    - constructor. now apply after_refl.
    - eapply (sound_bind F _ _ 0 0).
      + apply (multilinear_work (verify_skip u32 (S (c_id c))) (S (c_id c))); auto.
        * intros c' st' H1 H2 H3 H4. apply skip_work; auto.
        * apply HC. now left.
      + intros st1 A1. assert (A := A1). destruct A as (K1 & (ext & E1 & _) & T1 & _).
        eapply (sound_mono F _ _ 0 0); [apply IH; auto|auto|].
        * intros c' HI. destruct (HC c' (or_intror HI)) as (o & Eo & En). exists o. split; auto. rewrite E1. now apply nth_error_grow.
        * intros st2 A2. unfold claims_work, ids_work. cbn [map]. rewrite list_sum_cons. apply (after_trans st st1 st2); auto.
          unfold claims_work in A2. rewrite E1, ids_work_app in A2; auto.
          intros i Hi. apply in_map_iff in Hi as (c' & <- & Hi). destruct (HC c' (or_intror Hi)) as (o & Eo & _). apply exists_lt. eauto.
  Qed.

  Theorem evalcheck_work claims st : vstate_ok st -> tracked D st -> (forall c, In c claims -> claim_sized (st_oracles st) c) ->
    sound (after st (claims_work (st_oracles st) claims)) 0 (EvalModel.verify u32 claims st).
  Proof. intros HS HT HC. unfold EvalModel.verify. apply (loop_work claims (set_round [] st)); auto. Qed.
End Work.
