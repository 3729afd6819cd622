(** C73: the sumcheck claims made from the obligations of evalcheck, and the evaluation claims made from their outputs. *)
Require Import Coq.setoid_ring.Ring Coq.Arith.Arith Coq.Lists.List Coq.Bool.Bool Lia.
From Verif Require Import Base.Fld Base.Lists Base.Sums Math.MleSpec Math.MleModel Math.ArithModel Math.ArithProofs Math.ArithProps
  Field.Quad Field.TowerProofs Transparent.TransparentModel Transparent.TransparentProps Protocol.Proto Protocol.Soundness
  Evalcheck.OracleModel Evalcheck.EvalModel Evalcheck.EvalSpec Evalcheck.OracleProps Evalcheck.EvalMle Evalcheck.EvalProofs
  Evalcheck.EvalExtend Evalcheck.EvalSound Sumcheck.SumcheckModel Sumcheck.SumcheckSpec Sumcheck.SumcheckProps
  Sumcheck.EqIndModel Sumcheck.EqIndProps Evalcheck.GreedyModel Evalcheck.GreedyComp Evalcheck.GreedyWork.
Import ListNotations.

Lemma rmap_inv {A B} (f : A -> res B) : forall l r, rmap f l = Ok r -> Forall2 (fun a b => f a = Ok b) l r.
Proof.
  induction l as [|a l IH]; intros r E; cbn [rmap] in E; [injection E as <-; constructor|].
  destruct (f a) as [b| |] eqn:Ea; try discriminate. cbn [rbind] in E. destruct (rmap f l) as [bs| |]; try discriminate.
  cbn [rbind] in E. injection E as <-. constructor; auto.
Qed.

Lemma Forall2_len {A B} (R : A -> B -> Prop) l l' : Forall2 R l l' -> length l = length l'.
Proof. induction 1; cbn; auto. Qed.
Lemma Forall2_weaken {A B} (R R' : A -> B -> Prop) l l' : (forall a b, R a b -> R' a b) -> Forall2 R l l' -> Forall2 R' l l'.
Proof. intros H. induction 1; auto. Qed.
Lemma Forall2_in_r {A B} (R : A -> B -> Prop) l l' b : Forall2 R l l' -> In b l' -> exists a, In a l /\ R a b.
Proof. induction 1 as [|x y l l' H F IH]; intros [].
  - subst. exists x. split; auto. now left.
  - destruct IH as (a & Ha & HR); auto. exists a. split; auto. now right.
Qed.
Lemma Forall2_in_l {A B} (R : A -> B -> Prop) l l' a : Forall2 R l l' -> In a l -> exists b, In b l' /\ R a b.
Proof. induction 1 as [|x y l l' H F IH]; intros [].
  - subst. exists y. split; auto. now left.
  - destruct IH as (b & Hb & HR); auto. exists b. split; auto. now right.
Qed.

Lemma sum_incl (w : nat -> nat) : forall l m, NoDup l -> incl l m -> (list_sum (map w l) <= list_sum (map w m))%nat.
Proof.
  induction l as [|a l IH]; intros m ND HI; cbn [map]; [cbn; lia|]. rewrite list_sum_cons.
  inversion ND as [|? ? NI ND']; subst. destruct (in_split a m (HI a (or_introl eq_refl))) as (m1 & m2 & ->).
  specialize (IH (m1 ++ m2) ND'). rewrite map_app, list_sum_app in *. cbn [map]. rewrite list_sum_cons.
  assert (incl l (m1 ++ m2)); [|specialize (IH H); lia].
  intros x Hx. specialize (HI x (or_intror Hx)). apply in_app_iff in HI. apply in_app_iff. destruct HI as [H|[H|H]]; auto. subst. tauto.
Qed.

Lemma increasing_nodup l : increasing l -> NoDup l.
Proof. induction 1 as [|a l H HI IH]; constructor; auto. intros K. specialize (H a K). lia. Qed.

Lemma sorted_last l : is_sorted_ascending l = true -> forall x, In x l -> (x <= last l 0)%nat.
Proof.
  induction l as [|a l IH]; intros E x Hx; [destruct Hx|]. destruct l as [|b l]; [destruct Hx as [<-|[]]; cbn; lia|].
  cbn [is_sorted_ascending] in E. apply andb_prop in E as [E1 E2]. apply negb_true_iff, Nat.ltb_ge in E1.
  change (last (a :: b :: l) 0%nat) with (last (b :: l) 0%nat). destruct Hx as [<-|Hx]; [|now apply IH].
  specialize (IH E2 b (or_introl eq_refl)). lia.
Qed.

Section Sets.
  Variable L : nat.
  Notation F := (TF L).
  Local Open Scope fld_scope.
  Add Ring FLring : (f_ring (TF L)).

  (** What is known about the compositions of a constraint set. *)
  Definition group_ok (P : circuit F -> Prop) (ids : list nat) (c : circuit F * F) : Prop :=
    cwf F (fst c) /\ (n_vars (fst c) <= length ids)%nat /\ P (fst c).
  Definition set_good (P : circuit F -> Prop) (os : oset L) (s : cset L) : Prop :=
    cs_constraints s <> [] /\ (forall c, In c (cs_constraints s) -> group_ok P (cs_ids s) c) /\
    forall i, In i (cs_ids s) -> exists o, nth_error os i = Some (Some o) /\ o_nvars o = cs_nvars s.

  Lemma built_inv D (P : circuit F -> Prop) (os : oset L) b n s :
    (forall u, In u b -> ungrouped_ok os n u /\ forall pos c, remap_vars (u_comp u) pos = Ok c -> P c) ->
    build_one os b = Ok (Built s) ->
    set_good P os s /\ cs_nvars s = n /\ Forall2 (same_constraint L (cs_ids s)) b (cs_constraints s) /\
    (ids_work D os (cs_ids s) <= list_sum (map (fun u => ids_work D os (u_ids u)) b))%nat.
  Proof.
    intros HB E.
    assert (EX : exists u, In u b /\ u_ids u <> []).
    { destruct (existsb (fun u => negb (length (u_ids u) =? 0)%nat) b) eqn:EB.
      - apply existsb_exists in EB as (u & Hu & EE). exists u. split; auto. intros EI. rewrite EI in EE. discriminate.
      - rewrite build_one_empty in E; [discriminate|]. intros u Hu. destruct (u_ids u) as [|i l] eqn:EU; auto.
        exfalso. assert (existsb (fun u => negb (length (u_ids u) =? 0)%nat) b = true); [|congruence].
        apply existsb_exists. exists u. rewrite EU. auto. }
    destruct (build_one_correct L os b n) as (s' & E' & N & I & M & F2); [intros u Hu; now apply HB|exact EX|].
    rewrite E in E'. injection E' as <-.
    (* the remapped circuits *)
    assert (G : forall c, In c (cs_constraints s) -> group_ok P (cs_ids s) c).
    { unfold build_one in E. destruct (concat (map u_ids b)) as [|a0 l0] eqn:EC; [discriminate|].
      destruct (negb _); [discriminate|]. set (l := dedup (sort (a0 :: l0))) in *.
      destruct (match l with [] => Ok 0%nat | id :: _ => n_vars_of os id end) as [m| |]; cbn [rbind] in E; try discriminate.
      destruct (check_n_vars os m l) as [[]| |]; cbn [rbind] in E; try discriminate.
      destruct (rmap (regroup l) b) as [cs| |] eqn:ER; cbn [rbind] in E; try discriminate. injection E as Es. 
      apply rmap_inv in ER. intros c Hc. assert (EI : cs_ids s = l) by (rewrite <- Es; reflexivity).
      assert (Hc' : In c cs) by (rewrite <- Es in Hc; exact Hc). rewrite EI.
      destruct (Forall2_in_r _ _ _ _ ER Hc') as (u & Hu & Er). destruct (HB u Hu) as [(W & NE & NV & _) HP].
      assert (HI : forall i, In i (u_ids u) -> In i l) by (intros i Hi; rewrite <- EI; apply M; eauto).
      unfold regroup in Er. destruct (positions_spec (u_ids u) l HI) as (ps & Ep & HF). rewrite Ep in Er.
      destruct (positions_length l _ _ HF) as [LP LJ].
      destruct (proj1 (remap_vars_correct F (u_comp u) ps W)) as (c' & E' & Wc & Lc & HE); [lia|]. rewrite E' in Er. injection Er as <-.
      split; [split; [intros K; apply NE; cbn [fst] in K; subst c'; destruct (u_comp u); auto; discriminate|exact Wc]|]. cbn [fst]. split; [|eauto].
      set (q := repeat (0 : F) (length l)). assert (Hq : length q = length l) by apply repeat_length. specialize (HE q). rewrite Hq in HE.
      destruct (wf_evaluate L (u_comp u) (map (fun j => nth j q 0) ps) W) as [v Ev]; [rewrite map_length; lia|].
      rewrite <- HE in Ev by auto. apply evaluate_valid in Ev as (vs & HV & _). apply valid_nvars in HV. now rewrite Hq in HV. }
    split; [|split; [exact N|split; [exact F2|]]].
    - split; [|split; [exact G|]].
      + intros EC. rewrite EC in F2. destruct EX as (u & Hu & _). inversion F2; subst. destruct Hu.
      + intros i Hi. apply M in Hi as (u & Hu & Hi). destruct (HB u Hu) as [(_ & _ & _ & H) _]. rewrite N. auto.
    - transitivity (ids_work D os (concat (map u_ids b))).
      + apply sum_incl; [now apply increasing_nodup|]. intros i Hi. apply M in Hi as (u & Hu & Hi). apply in_concat.
        exists (u_ids u). split; auto. now apply in_map.
      + apply Nat.eq_le_incl. clear. unfold ids_work. induction b as [|u b IH]; auto. cbn [map concat].
        rewrite map_app, list_sum_app, list_sum_cons, IH. reflexivity.
  Qed.

  (** * The claim of a set *)
  Definition set_inst (V : values L) (s : cset L) (c : SumcheckModel.claim F) : inst F := (c, map V (cs_ids s)).
  Definition compiled (d : nat) (c : circuit F) : Prop :=
    forall n k, circuit_comp n c = Ok k -> (c_deg k <= d)%nat /\ faithful L n c k.

  Lemma set_claim_inv (s : cset L) c m : constraint_set_claim s = Ok (c, m) ->
    m = (cs_nvars s, cs_ids s) /\ cl_n c = cs_nvars s /\ cl_m c = length (cs_ids s) /\
    Forall2 (fun con cs => circuit_comp (length (cs_ids s)) (fst con) = Ok (fst cs) /\ snd cs = snd con) (cs_constraints s) (cl_sums c).
  Proof.
    unfold constraint_set_claim. intros E. destruct (rmap _ (cs_constraints s)) as [sums| |] eqn:ER; try discriminate. cbn [rbind] in E.
    unfold claim_new in E. destruct (existsb _ sums); try discriminate. cbn [rbind] in E. injection E as <- <-. repeat split; auto.
    cbn [cl_sums]. apply rmap_inv in ER. eapply Forall2_weaken; [|exact ER]. intros con cs EE. cbv beta in EE.
    destruct (circuit_comp _ _) as [k| |]; try discriminate. cbn [rbind] in EE. injection EE as <-. auto.
  Qed.

  Section Inst.
    Variable os : oset L.
    Variable s : cset L.
    Variable c : SumcheckModel.claim F.
    Variable m : claim_meta.
    Variable P : circuit F -> Prop.
    Variable d : nat.
    Hypothesis HP : forall c, P c -> compiled d c.
    Hypothesis HG : set_good P os s.
    Hypothesis HC : constraint_set_claim s = Ok (c, m).

    Lemma sums_spec cs : In cs (cl_sums c) -> exists con, In con (cs_constraints s) /\ group_ok P (cs_ids s) con /\
      circuit_comp (length (cs_ids s)) (fst con) = Ok (fst cs) /\ snd cs = snd con.
    Proof.
      intros H. destruct (set_claim_inv s c m HC) as (_ & _ & _ & F2). destruct (Forall2_in_r _ _ _ _ F2 H) as (con & Hcon & E1 & E2).
      exists con. split; auto. split; auto. now apply HG.
    Qed.
    Lemma sums_nonempty : cl_sums c <> [].
    Proof.
      destruct (set_claim_inv s c m HC) as (_ & _ & _ & F2). intros E. rewrite E in F2. apply (proj1 HG). inversion F2. auto.
    Qed.
    Lemma sums_length : length (cl_sums c) = length (cs_constraints s).
    Proof. destruct (set_claim_inv s c m HC) as (_ & _ & _ & F2). symmetry. eapply Forall2_len; eauto. Qed.
    Lemma sums_degree : (max_individual_degree c <= d)%nat.
    Proof.
      unfold max_individual_degree. assert (H : forall cs, In cs (cl_sums c) -> (c_deg (fst cs) <= d)%nat).
      { intros cs Hcs. destruct (sums_spec cs Hcs) as (con & _ & (_ & _ & K) & E & _). now apply (HP _ K _ _ E). }
      induction (cl_sums c) as [|cs l IH]; cbn [map fold_right]; [lia|]. assert (K := H cs (or_introl eq_refl)).
      assert ((fold_right Nat.max 0 (map (fun cs => c_deg (fst cs)) l) <= d)%nat); [|lia]. apply IH. intros; apply H; now right.
    Qed.

    Lemma set_inst_ok V : inst_ok (set_inst V s c).
    Proof.
      destruct (set_claim_inv s c m HC) as (_ & _ & EM & _). split.
      - cbn [set_inst fst snd]. rewrite map_length. auto.
      - intros cs Hcs. cbn [set_inst fst] in *. destruct (sums_spec cs Hcs) as (con & _ & (W & NV & K) & E & _).
        rewrite EM. apply (circuit_comp_ok L _ (fst con)); auto. apply (HP _ K _ _ E).
    Qed.

    Lemma comp_value V x con (cs : comp F * F) : In con (cs_constraints s) -> circuit_comp (length (cs_ids s)) (fst con) = Ok (fst cs) ->
      val (SumcheckModel.c_eval (fst cs) (map (fun t => t x) (map V (cs_ids s)))) = comp_at V (cs_ids s) (fst con) x.
    Proof.
      intros Hcon E. destruct (proj1 (proj2 HG) con Hcon) as (W & NV & K). rewrite map_map. unfold comp_at.
      destruct (wf_evaluate L (fst con) (map (fun i => V i x) (cs_ids s)) (proj2 W)) as [v Ev]; [rewrite map_length; auto|].
      rewrite Ev, (proj2 (HP _ K _ _ E) _ v); auto. now rewrite map_length.
    Qed.

    Lemma set_inst_true V : SumcheckSpec.claim_true (set_inst V s c) -> set_sum_true L V s.
    Proof.
      intros H con Hcon. destruct (set_claim_inv s c m HC) as (_ & EN & _ & F2).
      destruct (Forall2_in_l _ _ _ _ F2 Hcon) as (cs & Hcs & E1 & E2). specialize (H cs Hcs). cbn [set_inst fst snd] in H.
      rewrite <- E2, H, EN. unfold true_sum. apply sumn_ext. intros x _. symmetry. now apply comp_value.
    Qed.
    Lemma set_inst_eq_true V p : length p = cs_nvars s -> eq_claim_true p (set_inst V s c) -> set_mle_true L V p s.
    Proof.
      intros LP H con Hcon. destruct (set_claim_inv s c m HC) as (_ & EN & _ & F2).
      destruct (Forall2_in_l _ _ _ _ F2 Hcon) as (cs & Hcs & E1 & E2). specialize (H cs Hcs). cbn [set_inst fst snd] in H.
      rewrite <- E2, H, EN. unfold mle. rewrite LP. apply sumn_ext. intros x _. unfold lastn. rewrite <- LP, Nat.sub_diag. cbn [skipn].
      f_equal. symmetry. now apply comp_value.
    Qed.
  End Inst.

  (** * Evaluation claims *)
  Lemma claims_of_set_inv mx (chal : list F) n ids evals (cs : list (EvalModel.claim L)) : claims_of_set HighToLow mx chal ((n, ids), evals) = Ok cs ->
    map c_id cs = ids /\ (forall c, In c cs -> c_point c = skipn (mx - n) chal) /\
    forall V, (forall c, In c cs -> EvalSpec.claim_true V c) -> evals = map (fun id => mle (V id) (skipn (mx - n) chal)) ids.
  Proof.
    unfold claims_of_set. destruct (Nat.eqb_spec (length ids) (length evals)) as [LE|]; [|discriminate]. cbn [negb]. intros E. injection E as <-.
    split; [|split].
    - rewrite map_map. cbn [c_id]. clear -LE. revert evals LE. induction ids as [|i ids IH]; intros [|e evals] LE; try discriminate; auto.
      cbn [combine map fst]. f_equal. apply IH. cbn in LE. lia.
    - intros c Hc. apply in_map_iff in Hc as (ie & <- & _). reflexivity.
    - intros V H. revert evals LE H. induction ids as [|i ids IH]; intros [|e evals] LE H; try discriminate; auto.
      cbn [map combine] in *. f_equal.
      + symmetry. exact (H _ (or_introl eq_refl)).
      + apply IH; [cbn in LE; lia|]. intros; apply H; now right.
  Qed.

  Lemma make_claims_inv metas out (cs : list (EvalModel.claim L)) : make_eval_claims HighToLow metas out = Ok cs ->
    map c_id cs = concat (map snd metas) /\
    (forall c, In c cs -> exists m, In m metas /\ In (c_id c) (snd m) /\ length (c_point c) = fst m) /\
    forall V, (forall c, In c cs -> EvalSpec.claim_true V c) ->
      snd out = map (fun m => map (fun id => mle (V id) (lastn (fst m) (fst out))) (snd m)) metas.
  Proof.
    unfold make_eval_claims. destruct (is_sorted_ascending (map fst metas)) eqn:ES; [|discriminate]. cbn [negb].
    destruct (Nat.eqb_spec (length metas) (length (snd out))) as [LM|]; [|discriminate]. cbn [negb].
    destruct (Nat.eqb_spec (last (map fst metas) 0%nat) (length (fst out))) as [LC|]; [|discriminate]. cbn [negb]. rewrite LC.
    destruct (rmap _ _) as [css| |] eqn:ER; try discriminate. cbn [rbind]. intros E. injection E as <-.
    assert (HM : forall m, In m metas -> (fst m <= length (fst out))%nat).
    { intros m Hm. rewrite <- LC. apply sorted_last; auto. now apply in_map. }
    clear ES LC. apply rmap_inv in ER. destruct out as [chal evals]. cbn [fst snd] in *.
    revert evals css LM ER. induction metas as [|[n ids] metas IH]; intros [|es evals] css LM ER; try discriminate; cbn [combine] in ER.
    - inversion ER; subst. cbn. split; auto. split; [intros ? []|]. auto.
    - inversion ER as [|? cs0 ? css' E0 ER']; subst. destruct (IH (fun m H => HM m (or_intror H)) evals css') as (H1 & H2 & H3); [cbn in LM; lia|auto|].
      destruct (claims_of_set_inv _ _ _ _ _ _ E0) as (G1 & G2 & G3). assert (Hn := HM _ (or_introl eq_refl)). cbn [fst] in Hn.
      cbn [concat map]. rewrite map_app, G1, H1. split; auto. split.
      + intros c Hc. apply in_app_iff in Hc as [Hc|Hc].
        * exists (n, ids). cbn [fst snd]. split; [now left|]. split; [rewrite <- G1; now apply in_map|].
          rewrite (G2 c Hc), skipn_length. lia.
        * destruct (H2 c Hc) as (m & Hm & K). exists m. split; [now right|auto].
      + intros V HV. f_equal.
        * cbn [fst snd]. apply G3. intros; apply HV, in_app_iff; auto.
        * apply H3. intros; apply HV, in_app_iff; auto.
  Qed.
End Sets.
