(** C22, C23, C58: arithmetic expressions and circuits. *)
Require Import Coq.NArith.NArith Coq.setoid_ring.Ring Coq.Arith.Arith Coq.Lists.List Coq.Bool.Bool Lia.
From Verif Require Import Base.Fld Base.Lists Base.Sums Base.Poly Math.ArithModel Math.ArithProofs Math.ArithOpt Field.Examples.
Import ListNotations.
Local Close Scope N_scope.
Local Open Scope nat_scope.
Local Arguments N.pow : simpl never.
Local Arguments N.mul : simpl never.

Section Props.
  Variable F : field.
  Local Open Scope fld_scope.
  Add Ring Fring : (f_ring F).

  (* ---------------------------------------------------------------- *)
  (** * Specification: the value of an expression *)
  Fixpoint eeval (e : expr F) (x : nat -> F) : F :=
    match e with
    | EConst v => v
    | EVar i => x i
    | EAdd _ l _ r => eeval l x + eeval r x
    | EMul _ l _ r => eeval l x * eeval r x
    | EPow _ b n => fpow (eeval b x) (N.to_nat n)
    end.

  (** The expression is stored in a memory [h]: two equal addresses hold the same node. *)
  Fixpoint stored (h : nat -> expr F) (e : expr F) : Prop :=
    match e with
    | EConst _ | EVar _ => True
    | EAdd pl l pr r | EMul pl l pr r => h pl = l /\ h pr = r /\ stored h l /\ stored h r
    | EPow pb b n => h pb = b /\ stored h b /\ (n < 2 ^ 64)%N
    end.

  Fixpoint vars_below (n : nat) (e : expr F) : Prop :=
    match e with
    | EConst _ => True
    | EVar i => (i < n)%nat
    | EAdd _ l _ r | EMul _ l _ r => vars_below n l /\ vars_below n r
    | EPow _ b _ => vars_below n b
    end.

  (** Every step refers to earlier steps, exponents are 64-bit integers, and there is a last step.
      All circuits built with the API have this form: [circuits_wf] and [from_expr_correct]. *)
  Definition cwf (c : circuit F) : Prop := c <> [] /\ wf c.

  Theorem circuits_wf :
    (forall v, cwf (cconst v)) /\ (forall i, cwf (cvar i)) /\
    (forall a b, cwf a -> cwf b -> cwf (cadd a b) /\ cwf (cmul a b) /\ cwf (csub a b)) /\
    (forall a e, (e < 2 ^ 64)%N -> cwf a -> cwf (cpow a e)).
  Proof.
    split; [|split; [|split]].
    - intros v. split; [discriminate|]. now apply single_wf.
    - intros i. split; [discriminate|]. now apply single_wf.
    - intros a b [A1 A2] [B1 B2]. unfold csub, cwf. split; [|split]; (split; [unfold cadd, cmul; intros E; apply app_eq_nil in E; destruct E; discriminate|]);
        (now apply cadd_wf) || (now apply cmul_wf).
    - intros a e He [A1 A2]. split; [unfold cpow; intros E; apply app_eq_nil in E; destruct E; discriminate|]. now apply cpow_wf.
  Qed.

  (** A circuit evaluates whenever the query covers its variables. *)
  Theorem evaluate_total (c : circuit F) q : wf c -> (n_vars c <= length q)%nat -> exists v, evaluate c q = Some v.
  Proof.
    intros W H. destruct (wf_evals F q c W H) as [vs V]. exists (last vs 0). apply evaluate_valid. eauto.
  Qed.

  (** The operators compute what they say. *)
  Theorem circuit_ops q a b x y e : cwf a -> cwf b -> evaluate a q = Some x -> evaluate b q = Some y ->
    evaluate (cadd a b) q = Some (x + y) /\ evaluate (cmul a b) q = Some (x * y) /\
    ((e < 2 ^ 64)%N -> evaluate (cpow a e) q = Some (fpow x (N.to_nat e))) /\
    (1 + 1 = (0 : F) -> evaluate (csub a b) q = Some (x - y)).
  Proof.
    intros [A1 A2] [B1 B2] EA EB. apply evaluate_valid in EA, EB.
    destruct EA as [va [VA ->]], EB as [vb [VB ->]].
    destruct (cadd_valid F q a b va vb A1 B1 VA VB) as [vs [V E]].
    destruct (cmul_valid F q a b va vb A1 B1 VA VB) as [vs2 [V2 E2]].
    destruct (cpow_valid F q a va e A1 VA) as [vs3 [V3 E3]].
    assert (EA : evaluate (cadd a b) q = Some (last va 0 + last vb 0)) by (apply evaluate_valid; exists vs; auto).
    split; auto. split; [apply evaluate_valid; exists vs2; auto|]. split.
    - intros He. apply evaluate_valid. exists vs3. rewrite <- ppow_ok by auto. auto.
    - intros C. unfold csub. rewrite EA. f_equal.
      transitivity (last va 0 - last vb 0 + (1 + 1) * last vb 0); [ring|]. rewrite C. ring.
  Qed.

  Theorem csum_correct q (l : list (circuit F)) vs : length l = length vs ->
    (forall i, (i < length l)%nat -> cwf (nth i l []) /\ evaluate (nth i l []) q = Some (nth i vs 0)) ->
    evaluate (csum l) q = Some (fsum vs) /\ evaluate (cproduct l) q = Some (fprod vs).
  Proof.
    intros HL H.
    assert (G : forall l vs, length l = length vs -> (forall i, (i < length l)%nat -> cwf (nth i l []) /\ evaluate (nth i l []) q = Some (nth i vs 0)) ->
      forall a x b y, cwf a -> cwf b -> evaluate a q = Some x -> evaluate b q = Some y ->
      evaluate (fold_left cadd l a) q = Some (x + fsum vs) /\ evaluate (fold_left cmul l b) q = Some (y * fprod vs)).
    { clear. induction l as [|c l IH]; intros [|v vs] HL H a x b y WA WB EA EB; try discriminate; cbn [fold_left].
      - cbn. rewrite EA, EB. split; f_equal; ring.
      - destruct (H 0%nat) as [WC EC]; [cbn; lia|]. cbn [nth] in *.
        destruct (circuit_ops q a c x v 0 WA WC EA EC) as [E1 _].
        destruct (circuit_ops q b c y v 0 WB WC EB EC) as [_ [E2 _]].
        destruct circuits_wf as [_ [_ [OW _]]].
        destruct (IH vs ltac:(cbn in HL; lia) (fun i Hi => H (S i) ltac:(cbn; lia)) (cadd a c) (x + v) (cmul b c) (y * v)) as [G1 G2]; auto.
        { now apply OW. } { now apply OW. }
        rewrite G1, G2. cbn [fsum fprod fold_right]. fold (fsum vs) (fprod vs). split; f_equal; ring. }
    destruct circuits_wf as [CW _].
    destruct (G l vs HL H (cconst 0) 0 (cconst 1) 1 (CW 0) (CW 1) eq_refl eq_refl) as [G1 G2].
    unfold csum, cproduct. rewrite G1, G2. split; f_equal; ring.
  Qed.

  (* ---------------------------------------------------------------- *)
  (** * C22: expressions to circuits and back *)
  Definition visited (h : nat -> expr F) (q : list F) (m : list (nat * nat)) (vs : list F) : Prop :=
    forall p i, assoc m p = Some i -> nth_error vs i = Some (eeval (h p) (fun j => nth j q 0)).

  Lemma visit_ok h q e : stored h e -> vars_below (length q) e -> forall p m c vs,
    h p = e -> wf c -> valid q c vs -> visited h q m vs ->
    exists i m' c' vs', visit p e m c = (i, m', c') /\ wf c' /\ valid q c' (vs ++ vs') /\ visited h q m' (vs ++ vs') /\
      (i < length c')%nat /\ nth_error (vs ++ vs') i = Some (eeval e (fun j => nth j q 0)).
  Proof.
    assert (FOUND : forall e p m c vs i, h p = e -> wf c -> valid q c vs -> visited h q m vs -> assoc m p = Some i ->
      exists i' m' c' vs', (i, m, c) = (i', m', c') /\ wf c' /\ valid q c' (vs ++ vs') /\ visited h q m' (vs ++ vs') /\
      (i' < length c')%nat /\ nth_error (vs ++ vs') i' = Some (eeval e (fun j => nth j q 0))).
    { intros e0 p m c vs i Hp W V HM E. exists i, m, c, []. rewrite app_nil_r. split; auto. split; auto. split; auto. split; auto.
      pose proof (HM _ _ E) as Q. rewrite Hp in Q. split; auto. apply nth_error_lt in Q. destruct V as [L _]. lia. }
    assert (PUSH : forall e p m c vs s, h p = e -> wf c -> valid q c vs -> visited h q m vs ->
      (forall r, In r (refs s) -> (r < length c)%nat) -> exp_ok s -> step_val q vs s = Some (eeval e (fun j => nth j q 0)) ->
      wf (c ++ [s]) /\ valid q (c ++ [s]) (vs ++ [eeval e (fun j => nth j q 0)]) /\
      visited h q ((p, length c) :: m) (vs ++ [eeval e (fun j => nth j q 0)]) /\ (length c < length (c ++ [s]))%nat /\
      nth_error (vs ++ [eeval e (fun j => nth j q 0)]) (length c) = Some (eeval e (fun j => nth j q 0))).
    { intros e0 p m c vs s Hp W V HM HR HX HS. split; [now apply wf_snoc|]. split; [now apply valid_snoc|].
      assert (N : nth_error (vs ++ [eeval e0 (fun j => nth j q 0)]) (length c) = Some (eeval e0 (fun j => nth j q 0))).
      { destruct V as [L _]. rewrite <- L. apply nth_error_app_last. }
      split; [|split; [rewrite app_length; cbn; lia|exact N]].
      intros p' i. cbn [assoc]. destruct (Nat.eqb_spec p p') as [<-|NE].
      - intros E. injection E as <-. rewrite Hp. exact N.
      - intros E. apply nth_error_app_l. auto. }
    induction e as [v|x|pl l IHl pr r IHr|pl l IHl pr r IHr|pb b IHb n]; intros HS HV p m c vs Hp W V HM; cbn [visit].
    - destruct (assoc m p) as [i|] eqn:EA; [eauto|].
      destruct (PUSH (EConst v) p m c vs (SConst v)) as [A [B [C [D E]]]]; auto; try (intros ? []); try exact I.
      do 3 eexists. exists [v]. split; [reflexivity|]. auto.
    - destruct (assoc m p) as [i|] eqn:EA; [eauto|].
      destruct (PUSH (EVar x) p m c vs (SVar x)) as [A [B [C [D E]]]]; auto; try (intros ? []); try (cbn; now apply nth_error_nth_eq).
      do 3 eexists. exists [eeval (EVar x) (fun j => nth j q 0)]. split; [reflexivity|]. auto.
    - destruct (assoc m p) as [i|] eqn:EA; [eauto|]. cbn in HS, HV. destruct HS as [H1 [H2 [S1 S2]]], HV as [V1 V2].
      destruct (IHl S1 V1 pl m c vs H1 W V HM) as [il [m1 [c1 [vs1 [E1 [W1 [VV1 [M1 [I1 N1]]]]]]]]]. rewrite E1.
      destruct (IHr S2 V2 pr m1 c1 (vs ++ vs1) H2 W1 VV1 M1) as [ir [m2 [c2 [vs2 [E2 [W2 [VV2 [M2 [I2 N2]]]]]]]]]. rewrite E2.
      assert (L12 : (length c1 <= length c2)%nat).
      { destruct VV1 as [L1 _], VV2 as [L2 _]. rewrite app_length in L2. lia. }
      destruct (PUSH (EAdd pl l pr r) p m2 c2 ((vs ++ vs1) ++ vs2) (SAdd il ir)) as [A [B [C [D E]]]]; auto.
      { cbn. intros y [<-|[<-|[]]]; lia. } { exact I. }
      { cbn. rewrite (nth_error_app_l _ _ _ _ N1), N2. reflexivity. }
      do 3 eexists. exists (vs1 ++ vs2 ++ [eeval (EAdd pl l pr r) (fun j => nth j q 0)]). split; [reflexivity|].
      rewrite !app_assoc. auto.
    - destruct (assoc m p) as [i|] eqn:EA; [eauto|]. cbn in HS, HV. destruct HS as [H1 [H2 [S1 S2]]], HV as [V1 V2].
      destruct (IHl S1 V1 pl m c vs H1 W V HM) as [il [m1 [c1 [vs1 [E1 [W1 [VV1 [M1 [I1 N1]]]]]]]]]. rewrite E1.
      destruct (IHr S2 V2 pr m1 c1 (vs ++ vs1) H2 W1 VV1 M1) as [ir [m2 [c2 [vs2 [E2 [W2 [VV2 [M2 [I2 N2]]]]]]]]]. rewrite E2.
      assert (L12 : (length c1 <= length c2)%nat).
      { destruct VV1 as [L1 _], VV2 as [L2 _]. rewrite app_length in L2. lia. }
      destruct (PUSH (EMul pl l pr r) p m2 c2 ((vs ++ vs1) ++ vs2) (SMul il ir)) as [A [B [C [D E]]]]; auto.
      { cbn. intros y [<-|[<-|[]]]; lia. } { exact I. }
      { cbn. rewrite (nth_error_app_l _ _ _ _ N1), N2. reflexivity. }
      do 3 eexists. exists (vs1 ++ vs2 ++ [eeval (EMul pl l pr r) (fun j => nth j q 0)]). split; [reflexivity|].
      rewrite !app_assoc. auto.
    - destruct (assoc m p) as [i|] eqn:EA; [eauto|]. cbn in HS, HV. destruct HS as [H1 [S1 X1]].
      destruct (IHb S1 HV pb m c vs H1 W V HM) as [il [m1 [c1 [vs1 [E1 [W1 [VV1 [M1 [I1 N1]]]]]]]]]. rewrite E1.
      destruct (PUSH (EPow pb b n) p m1 c1 (vs ++ vs1) (SPow il n)) as [A [B [C [D E]]]]; auto.
      { cbn. intros y [<-|[]]; lia. }
      { cbn. rewrite N1. cbn. now rewrite ppow_ok. }
      do 3 eexists. exists (vs1 ++ [eeval (EPow pb b n) (fun j => nth j q 0)]). split; [reflexivity|].
      rewrite !app_assoc. auto.
  Qed.

  (** Converting an expression to a circuit preserves its value, whatever is shared. *)
  Theorem from_expr_correct h e q : stored h e -> vars_below (length q) e ->
    cwf (from_expr e) /\ evaluate (from_expr e) q = Some (eeval e (fun j => nth j q 0)).
  Proof.
    intros HS HV.
    assert (PUSH : forall c vs s v, wf c -> valid q c vs -> (forall r, In r (refs s) -> (r < length c)%nat) -> exp_ok s ->
      step_val q vs s = Some v -> cwf (c ++ [s]) /\ evaluate (c ++ [s]) q = Some v).
    { intros c vs s v W V HR HX E. split; [split; [intros EN; apply app_eq_nil in EN; destruct EN; discriminate|now apply wf_snoc]|].
      apply evaluate_valid. exists (vs ++ [v]). split; [now apply valid_snoc|]. now rewrite last_last. }
    assert (M0 : forall vs, visited h q [] vs) by (intros vs p i H; discriminate).
    destruct e as [v|x|pl l pr r|pl l pr r|pb b n]; cbn [from_expr eeval] in *.
    - apply (PUSH [] [] (SConst v)); auto using wf_nil, valid_nil; try (intros ? []); try exact I.
    - apply (PUSH [] [] (SVar x)); auto using wf_nil, valid_nil; try (intros ? []); try exact I. cbn; now apply nth_error_nth_eq.
    - cbn in HS, HV. destruct HS as [H1 [H2 [S1 S2]]], HV as [V1 V2].
      destruct (visit_ok h q l S1 V1 pl [] [] [] H1 (wf_nil F) (valid_nil F q) (M0 _)) as [il [m1 [c1 [vs1 [E1 [W1 [VV1 [M1 [I1 N1]]]]]]]]]. rewrite E1.
      destruct (visit_ok h q r S2 V2 pr m1 c1 _ H2 W1 VV1 M1) as [ir [m2 [c2 [vs2 [E2 [W2 [VV2 [M2 [I2 N2]]]]]]]]]. rewrite E2.
      assert (L12 : (length c1 <= length c2)%nat).
      { destruct VV1 as [L1 _], VV2 as [L2 _]. rewrite app_length in L2. lia. }
      eapply PUSH; eauto; [cbn; intros y [<-|[<-|[]]]; lia|exact I|].
      cbn [step_val]. rewrite (nth_error_app_l _ _ _ _ N1), N2. reflexivity.
    - cbn in HS, HV. destruct HS as [H1 [H2 [S1 S2]]], HV as [V1 V2].
      destruct (visit_ok h q l S1 V1 pl [] [] [] H1 (wf_nil F) (valid_nil F q) (M0 _)) as [il [m1 [c1 [vs1 [E1 [W1 [VV1 [M1 [I1 N1]]]]]]]]]. rewrite E1.
      destruct (visit_ok h q r S2 V2 pr m1 c1 _ H2 W1 VV1 M1) as [ir [m2 [c2 [vs2 [E2 [W2 [VV2 [M2 [I2 N2]]]]]]]]]. rewrite E2.
      assert (L12 : (length c1 <= length c2)%nat).
      { destruct VV1 as [L1 _], VV2 as [L2 _]. rewrite app_length in L2. lia. }
      eapply PUSH; eauto; [cbn; intros y [<-|[<-|[]]]; lia|exact I|].
      cbn [step_val]. rewrite (nth_error_app_l _ _ _ _ N1), N2. reflexivity.
    - cbn in HS, HV. destruct HS as [H1 [S1 X1]].
      destruct (visit_ok h q b S1 HV pb [] [] [] H1 (wf_nil F) (valid_nil F q) (M0 _)) as [il [m1 [c1 [vs1 [E1 [W1 [VV1 [M1 [I1 N1]]]]]]]]]. rewrite E1.
      eapply PUSH; eauto; [cbn; intros y [<-|[]]; lia|].
      cbn [step_val]. rewrite N1. cbn. now rewrite ppow_ok.
  Qed.

  (** Converting a circuit to an expression preserves its value. *)
  Theorem to_expr_correct c : cwf c -> exists e, to_expr c = Some e /\
    forall q v, evaluate c q = Some v -> eeval e (fun j => nth j q 0) = v.
  Proof.
    intros [NE W].
    assert (G : exists ns, ofold (fun ns s => do n <- node_expr ns s; Some (ns ++ [n])) c [] = Some ns /\ length ns = length c /\
      forall q vs, valid q c vs -> forall i n, nth_error ns i = Some n -> nth_error vs i = Some (eeval n (fun j => nth j q 0))).
    { clear NE. induction c as [|s c IH] using rev_ind.
      - exists []. repeat split; auto. intros q vs _ [|i] n H; discriminate.
      - apply wf_init in W. destruct W as [W [R X]]. destruct (IH W) as [ns [E [L H]]].
        rewrite ofold_app, E. cbn [ofold obind].
        assert (NR : forall r, In r (refs s) -> exists n, nth_error ns r = Some n).
        { intros r Hr. apply nth_error_ex. rewrite L. auto. }
        assert (S1 : exists n, node_expr ns s = Some n /\ forall q vs v, valid q c vs -> step_val q vs s = Some v ->
          v = eeval n (fun j => nth j q 0)).
        { destruct s as [l r|l r|b e|v|i]; cbn [node_expr refs] in *.
          - destruct (NR l) as [nl El]; [now left|]. destruct (NR r) as [nr Er]; [right; now left|]. rewrite El, Er. cbn [obind].
            eexists. split; [reflexivity|]. intros q vs v V. cbn. rewrite (H q vs V l nl El), (H q vs V r nr Er). cbn. congruence.
          - destruct (NR l) as [nl El]; [now left|]. destruct (NR r) as [nr Er]; [right; now left|]. rewrite El, Er. cbn [obind].
            eexists. split; [reflexivity|]. intros q vs v V. cbn. rewrite (H q vs V l nl El), (H q vs V r nr Er). cbn. congruence.
          - destruct (NR b) as [nl El]; [now left|]. rewrite El. cbn [obind].
            eexists. split; [reflexivity|]. intros q vs v V. cbn. rewrite (H q vs V b nl El). cbn. rewrite ppow_ok by auto. congruence.
          - eexists. split; [reflexivity|]. intros q vs v0 V. cbn. congruence.
          - eexists. split; [reflexivity|]. intros q vs v0 V. cbn. intros E'. symmetry. now apply nth_error_nth. }
        destruct S1 as [n [En Hn]]. rewrite En. cbn [obind]. eexists. split; [reflexivity|].
        split; [rewrite !app_length; cbn; lia|]. intros q vs V i n' Hi.
        apply valid_init in V. destruct V as [vs' [v [-> [V SV]]]].
        destruct (Nat.lt_ge_cases i (length ns)).
        + rewrite nth_error_app1 in Hi by auto. apply nth_error_app_l. eauto.
        + pose proof (nth_error_lt _ _ _ Hi) as Hl. rewrite app_length in Hl. cbn in Hl.
          assert (i = length ns) by lia. subst i. rewrite nth_error_app_last in Hi. injection Hi as <-.
          destruct V as [LV V']. rewrite L, <- LV, nth_error_app_last. f_equal. apply (Hn q vs'); auto. split; auto. }
    destruct G as [ns [E [L H]]]. unfold to_expr. rewrite E. cbn [obind].
    destruct (exists_last (l := ns)) as [ns' [n En]]; [intros ->; destruct c; [congruence|discriminate]|].
    subst ns. rewrite rev_app_distr. cbn [rev app]. exists n. split; auto. intros q v Ev.
    apply evaluate_valid in Ev. destruct Ev as [vs [V ->]].
    pose proof (H q vs V (length ns') n (nth_error_app_last _ _)) as Q.
    rewrite app_length in L. cbn in L.
    assert (NV : vs <> []) by (intros ->; destruct V as [LV _]; cbn in LV; lia).
    pose proof (last_nth_error F vs NV) as Q2. destruct V as [LV _].
    replace (length vs - 1)%nat with (length ns') in Q2 by lia. congruence.
  Qed.

  (** C22: optimisation.  [char2] tells whether the field has characteristic 2.  As long as the
      product of the exponents fits in 64 bits, the optimised circuit exists (no panic), is well
      formed, not longer, and has the same value on every input on which the original has one,
      whether or not the build checks for overflow. *)
  Theorem optimize_correct char2 c : (char2 = true -> 1 + 1 = (0 : F)) -> cwf c -> (exp_product c < 2 ^ 64)%N ->
    exists c', (forall wrapping, optimize wrapping char2 c = Some c') /\ cwf c' /\ (length c' <= length c)%nat /\
      forall q v, evaluate c q = Some v -> evaluate c' q = Some v.
  Proof.
    intros HC [NE W] HP. destruct (optimize_constants_some F char2 c W HP) as [c1 [E _]].
    destruct (optimize_ok F char2 c c1 HC NE W E) as [c' [E' [W' [N' [L' V']]]]]. exists c'. split; [exact E'|]. split; [split; assumption|]. split; assumption.
  Qed.

  (** Without the bound: a build with overflow checks either panics or preserves the value. *)
  Theorem optimize_checked_correct char2 c c' : (char2 = true -> 1 + 1 = (0 : F)) -> cwf c ->
    optimize false char2 c = Some c' ->
    cwf c' /\ forall q v, evaluate c q = Some v -> evaluate c' q = Some v.
  Proof.
    intros HC [NE W] E. unfold optimize in E. destruct (optimize_constants false char2 c) as [c1|] eqn:E1; [|discriminate].
    destruct (optimize_ok F char2 c c1 HC NE W E1) as [c2 [E' [W' [N' [L' V']]]]].
    specialize (E' false). unfold optimize in E'. rewrite E1 in E'. rewrite E in E'. injection E' as <-. split; [split; assumption|assumption].
  Qed.

  (** Equal circuits compute the same function. *)
  Theorem circuit_eq_correct c1 c2 : cwf c1 -> cwf c2 ->
    exists b, circuit_eq c1 c2 = Some b /\
      (b = true -> forall q v w, evaluate c1 q = Some v -> evaluate c2 q = Some w -> v = w).
  Proof.
    intros [N1 W1] [N2 W2]. unfold circuit_eq.
    assert (0 < length c1)%nat by (destruct c1; [congruence|cbn; lia]).
    assert (0 < length c2)%nat by (destruct c2; [congruence|cbn; lia]).
    destruct (node_eq_some F c1 c2 W1 W2 (S (length c1)) (length c1 - 1) (length c2 - 1)) as [b E]; try lia.
    exists b. split; auto. intros ->. intros q v w E1 E2. apply evaluate_valid in E1, E2.
    destruct E1 as [v1 [V1 ->]], E2 as [v2 [V2 ->]].
    destruct (node_eq_sound F q c1 c2 v1 v2 V1 V2 _ _ _ E) as [x [X1 X2]].
    assert (NV1 : v1 <> []) by (intros ->; destruct V1 as [LV _]; cbn in LV; lia).
    assert (NV2 : v2 <> []) by (intros ->; destruct V2 as [LV _]; cbn in LV; lia).
    pose proof (last_nth_error F v1 NV1) as Q1. pose proof (last_nth_error F v2 NV2) as Q2.
    destruct V1 as [L1 _], V2 as [L2 _]. rewrite L1 in Q1. rewrite L2 in Q2. congruence.
  Qed.

  (* ---------------------------------------------------------------- *)
  (** * C23: substitution and remapping *)
  Lemma omap_app {A B} (f : A -> option B) l1 l2 :
    omap f (l1 ++ l2) = do a <- omap f l1; do b <- omap f l2; Some (a ++ b).
  Proof.
    induction l1 as [|a l1 IH]; cbn [app omap].
    - destruct (omap f l2); reflexivity.
    - destruct (f a); [|reflexivity]. rewrite IH. destruct (omap f l1); [|reflexivity]. cbn. destruct (omap f l2); reflexivity.
  Qed.

  Lemma remap_valid indices (q q' : list F) : (forall i j, nth_error indices i = Some j -> nth_error q' i = nth_error q j) ->
    forall c c' vs, omap (remap_step indices) c = Some c' -> (valid q c' vs <-> valid q' c vs).
  Proof.
    intros HQ. induction c as [|s c IH] using rev_ind; intros c' vs E.
    - cbn in E. injection E as <-. split; intros [L _]; destruct vs; try discriminate; apply valid_nil.
    - rewrite omap_app in E. destruct (omap (remap_step indices) c) as [d|] eqn:ED; [|discriminate]. cbn [obind omap] in E.
      destruct (remap_step indices s) as [s'|] eqn:ES; [|discriminate]. cbn [obind] in E. injection E as <-.
      assert (SV : forall vs, step_val q vs s' = step_val q' vs s).
      { intros ws. destruct s; cbn in ES; try (injection ES as <-; reflexivity).
        destruct (nth_error indices i) as [j|] eqn:EI; [|discriminate]. injection ES as <-. cbn. symmetry. auto. }
      split; intros V; apply valid_init in V; destruct V as [vs' [v [-> [V E]]]]; apply valid_snoc.
      + now apply (IH d).
      + now rewrite <- SV.
      + now apply (IH d).
      + now rewrite SV.
  Qed.

  (** [remap_vars] replaces variable [i] by [indices\[i\]]; it fails exactly when some variable has
      no entry. *)
  Theorem remap_vars_correct (c : circuit F) indices : wf c ->
    ((n_vars c <= length indices)%nat -> exists c', remap_vars c indices = Ok c' /\ wf c' /\ length c' = length c /\
       forall q, (forall j, In j indices -> (j < length q)%nat) ->
         evaluate c' q = evaluate c (map (fun j => nth j q 0) indices)) /\
    (~ (n_vars c <= length indices)%nat -> remap_vars c indices = Err).
  Proof.
    intros W. unfold remap_vars.
    assert (G : (n_vars c <= length indices)%nat -> exists c', omap (remap_step indices) c = Some c' /\ wf c' /\ length c' = length c).
    { induction c as [|s c IH] using rev_ind; intros NV.
      - exists []. repeat split; auto; destruct i; discriminate.
      - apply wf_init in W. destruct W as [W [R X]]. rewrite n_vars_app in NV. destruct (IH W) as [d [E [WD L]]]; [lia|].
        assert (S1 : exists s', remap_step indices s = Some s' /\ refs s' = refs s /\ (exp_ok s -> exp_ok s')).
        { destruct s; cbn [remap_step]; try (eexists; split; [reflexivity|]; auto; fail).
          cbn in NV. destruct (nth_error_ex indices i) as [j Ej]; [lia|]. rewrite Ej. cbn. eexists. split; [reflexivity|]. auto. }
        destruct S1 as [s' [Es [Rs Xs]]]. exists (d ++ [s']). rewrite omap_app, E. cbn [obind omap]. rewrite Es. cbn [obind].
        split; auto. split; [|rewrite !app_length; cbn; lia]. apply wf_snoc; auto. rewrite Rs, L. auto. }
    split.
    - intros NV. destruct (G NV) as [c' [E [W' L']]]. rewrite E. exists c'. split; auto. split; auto. split; auto.
      intros q HQ. unfold evaluate.
      assert (RV : forall vs, valid q c' vs <-> valid (map (fun j => nth j q 0) indices) c vs).
      { intros vs. apply (remap_valid indices q (map (fun j => nth j q 0) indices)); auto.
        intros i j Hi. rewrite nth_error_map', Hi. cbn. symmetry. apply nth_error_nth_eq. apply HQ. eapply nth_error_In; eauto. }
      destruct (evals q c') as [vs|] eqn:E1.
      + apply evals_valid in E1. apply RV in E1. apply evals_valid in E1. now rewrite E1.
      + destruct (evals (map _ indices) c) as [vs|] eqn:E2; auto. apply evals_valid in E2. apply RV in E2. apply evals_valid in E2. congruence.
    - intros NV. clear G W. assert (G : omap (remap_step indices) c = None); [|now rewrite G].
      induction c as [|s c IH]; [cbn in NV; lia|]. cbn [omap].
      destruct (remap_step indices s) as [s'|] eqn:ES; [|reflexivity]. rewrite IH; auto.
      intros H. apply NV. change (s :: c) with ([s] ++ c). rewrite n_vars_app. apply Nat.max_lub; auto.
      destruct s; cbn in *; try lia. destruct (nth_error indices i) eqn:EI; [|discriminate]. apply nth_error_lt in EI. lia.
  Qed.

  (** [const_subst] evaluates like the original circuit with the variable set to the value. *)
  Theorem const_subst_correct (c : circuit F) var value q q' :
    nth_error q' var = Some value -> (forall i, i <> var -> nth_error q' i = nth_error q i) ->
    evaluate (const_subst c var value) q = evaluate c q'.
  Proof.
    intros HV HO. unfold evaluate.
    assert (G : evals q (const_subst c var value) = evals q' c); [|now rewrite G].
    assert (G : forall vs, ofold (fun vs s => do v <- step_val q vs s; Some (vs ++ [v])) (const_subst c var value) vs =
      ofold (fun vs s => do v <- step_val q' vs s; Some (vs ++ [v])) c vs); [|apply G].
    unfold const_subst. induction c as [|s c IH]; intros vs; [reflexivity|]. cbn [map ofold].
    assert (E : step_val q vs (match s with SVar i => if (i =? var)%nat then SConst value else s | _ => s end) = step_val q' vs s).
    { destruct s; try reflexivity. destruct (Nat.eqb_spec i var) as [->|NE]; cbn; [now rewrite HV|now rewrite HO]. }
    rewrite E. destruct (step_val q' vs s); cbn [obind]; [apply IH|reflexivity].
  Qed.

  Lemma get_constant_correct (c : circuit F) v q : get_constant c = Some (Some v) -> forall w, evaluate c q = Some w -> w = v.
  Proof.
    unfold get_constant. intros E w Ew. destruct c as [|s c _] using rev_ind; [discriminate|].
    rewrite rev_app_distr in E. cbn [rev app] in E. destruct s; try discriminate. injection E as <-.
    apply evaluate_valid in Ew. destruct Ew as [vs [V ->]]. apply valid_init in V. destruct V as [vs' [x [-> [V E]]]].
    cbn in E. rewrite last_last. congruence.
  Qed.

  (** [vars_usage] marks exactly the variables that occur; the others do not matter. *)
  Theorem vars_usage_correct (c : circuit F) : exists u, vars_usage c = Some u /\ length u = n_vars c /\
    (forall i, nth i u false = true <-> In (SVar i) c) /\
    forall q q', (forall i, nth i u false = true -> nth_error q i = nth_error q' i) -> evaluate c q = evaluate c q'.
  Proof.
    assert (G : forall c u0, (forall i, In (SVar i) c -> (i < length u0)%nat) -> exists u,
      ofold (fun u s => match s with SVar i => if (i <? length u)%nat then Some (upd u i true) else None | _ => Some u end) c u0 = Some u /\
      length u = length u0 /\ forall i, nth i u false = true <-> (nth i u0 false = true \/ In (@SVar F i) c)).
    { clear c. induction c as [|s c IH]; intros u0 H; cbn [ofold].
      - exists u0. repeat split; auto. intros [|[]]; auto.
      - destruct s; try (destruct (IH u0) as [u [E [L N]]]; [intros; apply H; now right|]; exists u; split; [exact E|]; split; [exact L|];
          intros j; rewrite N; cbn [In]; split; [intros [A|A]; auto|intros [A|[A|A]]; auto; discriminate]).
        assert (Hi : (i < length u0)%nat) by (apply H; now left). rewrite (proj2 (Nat.ltb_lt _ _) Hi).
        destruct (IH (upd u0 i true)) as [u [E [L N]]]; [intros; rewrite upd_length; apply H; now right|].
        exists u. split; auto. split; [now rewrite upd_length in L|]. intros j. rewrite N, upd_nth, (proj2 (Nat.ltb_lt _ _) Hi), andb_true_r.
        destruct (Nat.eqb_spec j i) as [->|NE]; cbn [In]; split; auto.
        + intros [A|A]; auto.
        + intros [A|[A|A]]; auto. congruence. }
    assert (B : forall i, In (SVar i) c -> (i < n_vars c)%nat).
    { clear G. induction c as [|s c IH]; [intros i []|]. intros i [->|H].
      - change (SVar i :: c) with ([SVar i] ++ c). rewrite n_vars_app. change (n_vars [SVar i]) with (Nat.max (S i) 0). lia.
      - change (s :: c) with ([s] ++ c). rewrite n_vars_app. specialize (IH i H). lia. }
    destruct (G c (repeat false (n_vars c))) as [u [E [L N]]]; [intros; rewrite repeat_length; auto|].
    exists u. split; auto. split; [now rewrite repeat_length in L|].
    assert (N' : forall i, nth i u false = true <-> In (SVar i) c).
    { intros i. rewrite N. split; auto. intros [A|A]; auto. exfalso.
      destruct (Nat.lt_ge_cases i (n_vars c)); [rewrite nth_repeat0 in A by auto; discriminate|].
      rewrite nth_overflow in A by (now rewrite repeat_length). discriminate. }
    split; auto. intros q q' HQ. unfold evaluate.
    assert (EE : evals q c = evals q' c); [|now rewrite EE].
    assert (HQ' : forall i, In (SVar i) c -> nth_error q i = nth_error q' i) by (intros i Hi; apply HQ; now apply N').
    clear - HQ'. assert (G : forall vs, ofold (fun vs s => do v <- step_val q vs s; Some (vs ++ [v])) c vs =
      ofold (fun vs s => do v <- step_val q' vs s; Some (vs ++ [v])) c vs); [|apply G].
    induction c as [|s c IH]; intros vs; [reflexivity|]. cbn [ofold].
    assert (E : step_val q vs s = step_val q' vs s) by (destruct s; cbn; auto; apply HQ'; now left).
    rewrite E. destruct (step_val q' vs s); cbn [obind]; [|reflexivity]. apply IH. intros i Hi. apply HQ'. now right.
  Qed.

  (* ---------------------------------------------------------------- *)
  (** * C23, C58: degree and leading term *)
  (** [topped d f a]: [f] is a polynomial of degree at most [d] with coefficient [a] at [d]. *)
  Definition topped (d : nat) (f : F -> F) (a : F) : Prop :=
    exists p, (length p <= d)%nat /\ forall t, f t = peval p t + a * fpow t d.

  Lemma topped_ext d f g a : (forall t, f t = g t) -> topped d g a -> topped d f a.
  Proof. intros E [p [L H]]. exists p. split; auto. intros. now rewrite E. Qed.

  Lemma topped_poly d f a : topped d f a -> is_poly (S d) f.
  Proof.
    intros [p [L H]]. exists (p ++ repeat 0 (d - length p) ++ [a]). rewrite !app_length, repeat_length. cbn. split; [lia|].
    intros t. rewrite H, !peval_app, peval_cons, peval_nil, repeat_length.
    rewrite (peval_zero F (repeat 0 _)) by (apply Forall_forall; intros y Hy; now apply repeat_spec in Hy).
    replace (fpow t d) with (fpow t (length p) * fpow t (d - length p)) by (rewrite <- fpow_add; f_equal; lia). ring.
  Qed.

  Lemma topped_lower d e f a : (d < e)%nat -> topped d f a -> topped e f 0.
  Proof.
    intros L H. destruct (topped_poly d f a H) as [p [Lp Hp]]. exists p. split; [lia|]. intros. rewrite Hp. ring.
  Qed.

  Lemma topped_const v : topped 0 (fun _ => v) v.
  Proof. exists []. split; auto. intros. rewrite peval_nil. cbn [fpow]. ring. Qed.

  Lemma topped_affine a b : topped 1 (fun t => a + t * b) b.
  Proof. exists [a]. split; auto. intros. rewrite peval_cons, peval_nil. cbn [fpow]. ring. Qed.

  Lemma topped_add d f g a b : topped d f a -> topped d g b -> topped d (fun t => f t + g t) (a + b).
  Proof.
    intros [p [L H]] [r [L' H']]. exists (padd p r). rewrite padd_length. split; [lia|].
    intros t. rewrite peval_padd, H, H'. ring.
  Qed.

  Lemma is_poly_mul' n m (f g : F -> F) : is_poly n f -> is_poly m g -> is_poly (n + m) (fun x => f x * g x).
  Proof.
    intros [p [L H]] [r [L' H']]. exists (pmul p r). split; [pose proof (pmul_length F p r); lia|].
    intros. now rewrite peval_pmul, H, H'.
  Qed.

  Lemma topped_mul d e f g a b : topped d f a -> topped e g b -> topped (d + e) (fun t => f t * g t) (a * b).
  Proof.
    intros [p [L H]] [r [L' H']].
    assert (SH : forall n (w : list F), is_poly (n + length w) (fun t => peval w t * fpow t n)).
    { intros n w. exists (repeat 0 n ++ w). rewrite app_length, repeat_length. split; auto. intros t.
      rewrite peval_app, repeat_length, (peval_zero F (repeat 0 n)) by (apply Forall_forall; intros y Hy; now apply repeat_spec in Hy). ring. }
    assert (P : is_poly (d + e) (fun t => peval p t * peval r t + (b * (peval p t * fpow t e) + a * (peval r t * fpow t d)))).
    { apply is_poly_add; [|apply is_poly_add; apply is_poly_scale].
      - apply is_poly_le with (n := (length p + length r)%nat); [lia|]. apply is_poly_mul'; apply is_poly_peval.
      - eapply is_poly_le; [|apply SH]. lia.
      - eapply is_poly_le; [|apply SH]. lia. }
    destruct P as [w [Lw Hw]]. exists w. split; auto. intros t. rewrite <- Hw, H, H', fpow_add. ring.
  Qed.

  Lemma topped_pow d f a n : topped d f a -> topped (d * n) (fun t => fpow (f t) n) (fpow a n).
  Proof.
    intros H. induction n as [|n IH].
    - rewrite Nat.mul_0_r. exact (topped_const 1).
    - replace (d * S n)%nat with (d + d * n)%nat by lia. cbn [fpow]. now apply topped_mul.
  Qed.

  Definition line (a b : list F) (t : F) : list F := map (fun xy => fst xy + t * snd xy) (combine a b).

  Lemma leading_ok (c : circuit F) a b : wf c -> length a = length b ->
    forall fuel i, (i < fuel)%nat -> (i < length c)%nat ->
    exists d lc, leading fuel c i = Some (d, lc) /\ step_degree fuel c i = Some d /\ cwf lc /\ (n_vars lc <= n_vars c)%nat /\
      ((n_vars c <= length b)%nat ->
       exists top, evaluate lc b = Some top /\
       exists f, topped d f top /\ forall t vs, valid (line a b t) c vs -> nth_error vs i = Some (f t)).
  Proof.
    intros W AB. induction fuel as [|fuel IH]; intros i Hf Hi; [lia|]. cbn [leading step_degree].
    destruct (nth_error_ex c i Hi) as [s Es]. rewrite Es. cbn [obind]. destruct (W _ _ Es) as [R X].
    assert (VA : forall t vs, valid (line a b t) c vs -> step_val (line a b t) vs s = nth_error vs i).
    { intros t vs V. destruct (valid_at _ _ _ _ _ _ V Es) as [v [E1 E2]]. congruence. }
    destruct circuits_wf as [CWc [CWv [CWo CWp]]].
    destruct s as [l r|l r|l e|v|x]; cbn [refs] in R.
    - destruct (IH l) as [d1 [lc1 [E1 [D1 [W1 [N1 P1]]]]]]; try (specialize (R l (or_introl eq_refl)); lia).
      destruct (IH r) as [d2 [lc2 [E2 [D2 [W2 [N2 P2]]]]]]; try (specialize (R r (or_intror (or_introl eq_refl))); lia).
      rewrite E1, E2, D1, D2. cbn [obind fst snd].
      assert (CV : forall f1 f2 t vs, valid (line a b t) c vs -> nth_error vs l = Some (f1 t) -> nth_error vs r = Some (f2 t) -> nth_error vs i = Some (f1 t + f2 t)).
      { intros f1 f2 t vs V Q1 Q2. rewrite <- (VA t vs V). cbn. rewrite Q1, Q2. reflexivity. }
      destruct (Nat.compare_spec d1 d2) as [EQ|LT|GT].
      + subst d2. do 2 eexists. split; [reflexivity|]. split; [f_equal; lia|]. split; [now apply CWo|]. split.
        * cbn [snd]. unfold cadd. rewrite !n_vars_app.
          assert (NO : forall o c0, n_vars (map (@offset_step F o) c0) = n_vars c0).
          { clear. intros o c0. unfold n_vars. rewrite map_map. f_equal. apply map_ext. intros [] ; reflexivity. }
          rewrite NO. cbn. lia.
        * intros NV. destruct (P1 NV) as [t1 [Q1 [f1 [T1 H1]]]]. destruct (P2 NV) as [t2 [Q2 [f2 [T2 H2]]]].
          exists (t1 + t2). cbn [fst snd]. split; [now apply (circuit_ops b lc1 lc2 t1 t2 0 W1 W2 Q1 Q2)|].
          exists (fun t => f1 t + f2 t). split; [now apply topped_add|]. intros. apply CV; auto.
      + do 2 eexists. split; [reflexivity|]. split; [f_equal; lia|]. split; auto. split; auto.
        intros NV. destruct (P1 NV) as [t1 [Q1 [f1 [T1 H1]]]]. destruct (P2 NV) as [t2 [Q2 [f2 [T2 H2]]]].
        exists t2. split; auto. exists (fun t => f1 t + f2 t). split; [|intros; apply CV; auto].
        replace t2 with (0 + t2) by ring. apply topped_add; auto. now apply (topped_lower d1 d2 f1 t1).
      + do 2 eexists. split; [reflexivity|]. split; [f_equal; lia|]. split; auto. split; auto.
        intros NV. destruct (P1 NV) as [t1 [Q1 [f1 [T1 H1]]]]. destruct (P2 NV) as [t2 [Q2 [f2 [T2 H2]]]].
        exists t1. split; auto. exists (fun t => f1 t + f2 t). split; [|intros; apply CV; auto].
        replace t1 with (t1 + 0) by ring. apply topped_add; auto. now apply (topped_lower d2 d1 f2 t2).
    - destruct (IH l) as [d1 [lc1 [E1 [D1 [W1 [N1 P1]]]]]]; try (specialize (R l (or_introl eq_refl)); lia).
      destruct (IH r) as [d2 [lc2 [E2 [D2 [W2 [N2 P2]]]]]]; try (specialize (R r (or_intror (or_introl eq_refl))); lia).
      rewrite E1, E2, D1, D2. cbn [obind fst snd]. do 2 eexists. split; [reflexivity|]. split; [reflexivity|].
      split; [now apply CWo|]. split.
      + unfold cmul. rewrite !n_vars_app.
        assert (NO : forall o c0, n_vars (map (@offset_step F o) c0) = n_vars c0).
        { clear. intros o c0. unfold n_vars. rewrite map_map. f_equal. apply map_ext. intros [] ; reflexivity. }
        rewrite NO. cbn. lia.
      + intros NV. destruct (P1 NV) as [t1 [Q1 [f1 [T1 H1]]]]. destruct (P2 NV) as [t2 [Q2 [f2 [T2 H2]]]].
        exists (t1 * t2). split; [now apply (circuit_ops b lc1 lc2 t1 t2 0 W1 W2 Q1 Q2)|].
        exists (fun t => f1 t * f2 t). split; [now apply topped_mul|]. intros t vs V. rewrite <- (VA t vs V). cbn.
        rewrite (H1 t vs V), (H2 t vs V). reflexivity.
    - destruct (IH l) as [d1 [lc1 [E1 [D1 [W1 [N1 P1]]]]]]; try (specialize (R l (or_introl eq_refl)); lia).
      rewrite E1, D1. cbn [obind fst snd]. do 2 eexists. split; [reflexivity|]. split; [reflexivity|].
      split; [now apply CWp|]. split.
      + unfold cpow. rewrite n_vars_app. cbn. lia.
      + intros NV. destruct (P1 NV) as [t1 [Q1 [f1 [T1 H1]]]].
        exists (fpow t1 (N.to_nat e)). split; [now apply (circuit_ops b lc1 lc1 t1 t1 e W1 W1 Q1 Q1)|].
        exists (fun t => fpow (f1 t) (N.to_nat e)). split; [now apply topped_pow|]. intros t vs V. rewrite <- (VA t vs V). cbn.
        rewrite (H1 t vs V). cbn. now rewrite ppow_ok.
    - do 2 eexists. split; [reflexivity|]. split; [reflexivity|]. split; [apply CWc|]. split; [cbn; lia|].
      intros NV. exists v. split; [reflexivity|]. exists (fun _ => v). split; [apply topped_const|].
      intros t vs V. rewrite <- (VA t vs V). reflexivity.
    - do 2 eexists. split; [reflexivity|]. split; [reflexivity|]. split; [apply CWv|].
      assert (NX : (S x <= n_vars c)%nat).
      { clear - Es. apply nth_error_In in Es. induction c as [|s c IH]; [destruct Es|].
        change (s :: c) with ([s] ++ c). rewrite n_vars_app. destruct Es as [->|Es]; [change (n_vars [SVar x]) with (Nat.max (S x) 0); lia|]. specialize (IH Es). lia. }
      split; [cbn; lia|].
      intros NV. exists (nth x b 0). split.
      { unfold evaluate, evals. cbn. rewrite (nth_error_nth_eq b x 0) by lia. reflexivity. }
      exists (fun t => nth x a 0 + t * nth x b 0). split; [apply topped_affine|].
      intros t vs V. rewrite <- (VA t vs V). cbn. unfold line. rewrite nth_error_map'.
      rewrite (nth_error_nth_eq (combine a b) x (0, 0)) by (rewrite combine_length; lia). cbn. rewrite combine_nth by auto. reflexivity.
  Qed.

  (** C23, C58: along every line [a + t b] the circuit is a polynomial in [t] of degree at most
      [degree c], and its coefficient at [t ^ degree c] is the value of [leading_term c] at [b]. *)
  Theorem degree_leading_term_correct c : cwf c -> exists d lc,
    degree c = Some d /\ leading_term c = Some lc /\ cwf lc /\
    forall a b, length a = length b -> (n_vars c <= length b)%nat ->
    exists coeffs, length coeffs = S d /\
      (forall t, evaluate c (line a b t) = Some (peval coeffs t)) /\
      evaluate lc b = Some (nth d coeffs 0).
  Proof.
    intros [NE W]. assert (HL : (0 < length c)%nat) by (destruct c; [congruence|cbn; lia]).
    destruct (leading_ok c [] [] W eq_refl (S (length c)) (length c - 1)) as [d [lc [E [D [WL _]]]]]; try lia.
    exists d, lc. unfold degree, leading_term. rewrite E, D. cbn [obind snd]. split; auto. split; auto. split; auto.
    intros a b AB NV.
    destruct (leading_ok c a b W AB (S (length c)) (length c - 1)) as [d' [lc' [E' [D' [_ [_ P]]]]]]; try lia.
    rewrite E in E'. injection E' as <- <-. destruct (P NV) as [top [ET [f [[p [Lp Hp]] HF]]]].
    exists (p ++ repeat 0 (d - length p) ++ [top]).
    assert (LL : length (p ++ repeat 0 (d - length p) ++ [top]) = S d) by (rewrite !app_length, repeat_length; cbn; lia).
    split; auto. split.
    - intros t. destruct (wf_evals F (line a b t) c W) as [vs V].
      { unfold line. rewrite map_length, combine_length. lia. }
      apply evaluate_valid. exists vs. split; auto.
      assert (NV' : vs <> []) by (intros ->; destruct V as [LV _]; cbn in LV; lia).
      pose proof (last_nth_error F vs NV') as Q. pose proof (HF t vs V) as Q'. destruct V as [LV _]. rewrite LV in Q.
      rewrite Q' in Q. injection Q as Q. rewrite <- Q, Hp, !peval_app, peval_cons, peval_nil, repeat_length.
      rewrite (peval_zero F (repeat 0 _)) by (apply Forall_forall; intros y Hy; now apply repeat_spec in Hy).
      replace (fpow t d) with (fpow t (length p) * fpow t (d - length p)) by (rewrite <- fpow_add; f_equal; lia). ring.
    - rewrite ET. f_equal. rewrite app_assoc, app_nth2; rewrite app_length, repeat_length; [|lia].
      replace (d - (length p + (d - length p)))%nat with 0%nat by lia. reflexivity.
  Qed.

  (* ---------------------------------------------------------------- *)
  (** * C23: linear normal form *)
  Definition lin_sum (m : list (nat * F)) (x : nat -> F) : F := fsum (map (fun kc => snd kc * x (fst kc)) m).
  Definition sp_ok (s : sparse F) : Prop :=
    NoDup (map fst (sp_coeffs s)) /\ forall k, In k (map fst (sp_coeffs s)) -> (k < sp_len s)%nat.
  Definition sp_val (s : sparse F) (x : nat -> F) : F := sp_const s + lin_sum (sp_coeffs s) x.

  Lemma map_add_ok m k (c : F) : NoDup (map fst m) ->
    NoDup (map fst (map_add m k c)) /\ (forall j, In j (map fst (map_add m k c)) <-> j = k \/ In j (map fst m)) /\
    forall x, lin_sum (map_add m k c) x = lin_sum m x + c * x k.
  Proof.
    induction m as [|[k' c'] m IH]; intros ND; cbn [map_add map fst] in *.
    - split; [repeat constructor; intros []|]. split; [intros j; cbn; split; [intros [<-|[]]; auto|intros [->|[]]; auto]|].
      intros x. unfold lin_sum. cbn. ring.
    - inversion ND as [|? ? N1 N2]; subst. destruct (Nat.eqb_spec k' k) as [->|NE]; cbn [map fst].
      + split; auto. split; [intros j; cbn; split; [intros [<-|H]; auto|intros [->|[<-|H]]; auto]|].
        intros x. unfold lin_sum. cbn. ring.
      + destruct (IH N2) as [A [B C]]. split.
        * constructor; auto. rewrite B. intros [->|H]; auto.
        * split; [intros j; cbn [In]; rewrite B; tauto|].
          intros x. unfold lin_sum in *. cbn [map fst snd fsum fold_right]. fold (fsum (map (fun kc => snd kc * x (fst kc)) (map_add m k c))).
          rewrite C. cbn. fold (fsum (map (fun kc => snd kc * x (fst kc)) m)). ring.
  Qed.

  Lemma fold_map_add o : forall m : list (nat * F), NoDup (map fst m) ->
    let r := fold_left (fun m kc => map_add m (fst kc) (snd kc)) o m in
    NoDup (map fst r) /\ (forall j, In j (map fst r) <-> In j (map fst o) \/ In j (map fst m)) /\
    forall x, lin_sum r x = lin_sum m x + lin_sum o x.
  Proof.
    induction o as [|[k c] o IH]; intros m ND; cbn [fold_left].
    - split; auto. split; [cbn; tauto|]. intros x. unfold lin_sum at 3. cbn. ring.
    - destruct (map_add_ok m k c ND) as [A [B C]]. destruct (IH _ A) as [A' [B' C']]. cbn [fst snd] in *.
      split; auto. split; [intros j; rewrite B', B; cbn; intuition congruence|].
      intros x. rewrite C', C. change (lin_sum ((k, c) :: o) x) with (c * x k + lin_sum o x). ring.
  Qed.

  Lemma sp_add_ok x y : sp_ok x -> sp_ok y -> sp_ok (sp_add x y) /\ forall v, sp_val (sp_add x y) v = sp_val x v + sp_val y v.
  Proof.
    intros [X1 X2] [Y1 Y2]. unfold sp_add.
    assert (G : forall r o : sparse F, sp_ok r -> sp_ok o ->
      let s := mkSparse (sp_const r + sp_const o) (fold_left (fun m kc => map_add m (fst kc) (snd kc)) (sp_coeffs o) (sp_coeffs r))
             (if (sp_len r <? sp_len o)%nat then sp_len o else sp_len r) in
      sp_ok s /\ forall v, sp_val s v = sp_val r v + sp_val o v).
    { intros r o [R1 R2] [O1 O2]. cbv zeta. destruct (fold_map_add (sp_coeffs o) (sp_coeffs r) R1) as [A [B C]]. split.
      - split; auto. cbn [sp_coeffs sp_len]. intros k Hk. apply B in Hk. destruct (Nat.ltb_spec (sp_len r) (sp_len o)).
        + destruct Hk as [Hk|Hk]; [auto|]. specialize (R2 _ Hk). lia.
        + destruct Hk as [Hk|Hk]; [|auto]. specialize (O2 _ Hk). lia.
      - intros v. unfold sp_val. cbn [sp_const sp_coeffs]. rewrite C. ring. }
    destruct (_ <? _)%nat.
    - destruct (G y x) as [A B]; [split; auto|split; auto|]. split; auto. intros v. rewrite B. ring.
    - apply G; split; auto.
  Qed.

  Lemma lin_sum_scale m k x : lin_sum (map (fun kc => (fst kc, snd kc * k)) m) x = lin_sum m x * k.
  Proof.
    unfold lin_sum. induction m as [|a m IH]; cbn [map fsum fst snd]; [ring|]. rewrite IH. ring.
  Qed.

  Lemma sp_mul_ok x y s : sp_ok x -> sp_ok y -> sp_mul x y = Ok s -> sp_ok s /\ forall v, sp_val s v = sp_val x v * sp_val y v.
  Proof.
    intros [X1 X2] [Y1 Y2]. unfold sp_mul.
    assert (G : forall r o : sparse F, sp_ok r -> sp_coeffs o = [] ->
      let s := mkSparse (sp_const r * sp_const o) (map (fun kc => (fst kc, snd kc * sp_const o)) (sp_coeffs r)) (sp_len r) in
      sp_ok s /\ forall v, sp_val s v = sp_val r v * sp_val o v).
    { intros r o [R1 R2] EO. cbv zeta.
      assert (EK : map fst (map (fun kc => (fst kc, snd kc * sp_const o)) (sp_coeffs r)) = map fst (sp_coeffs r)) by (rewrite map_map; reflexivity).
      split.
      - split; cbn [sp_coeffs sp_len]; rewrite EK; auto.
      - intros v. unfold sp_val. cbn [sp_const sp_coeffs]. rewrite lin_sum_scale, EO. unfold lin_sum at 3. cbn. ring. }
    destruct (sp_coeffs x) as [|cx lx] eqn:EX; cbn [is_nil negb andb].
    - intros E. injection E as <-. destruct (G y x) as [A B]; [split; auto|auto|]. split; auto. intros v. rewrite B. ring.
    - destruct (sp_coeffs y) as [|cy ly] eqn:EY; cbn [is_nil negb]; [|discriminate].
      intros E. injection E as <-. apply G; auto. split; [now rewrite EX|rewrite EX; auto].
  Qed.

  Lemma sparse_ok (c : circuit F) : wf c -> forall fuel i, (i < fuel)%nat -> (i < length c)%nat ->
    sparse_form fuel c i <> Panic /\
    (forall s, sparse_form fuel c i = Ok s -> sp_ok s /\
      forall q vs, valid q c vs -> nth_error vs i = Some (sp_val s (fun j => nth j q 0))) /\
    (forall d, step_degree fuel c i = Some d -> (d <= 1)%nat -> exists s, sparse_form fuel c i = Ok s /\
       (d = 0%nat -> sp_coeffs s = [] /\ sp_len s = 0%nat)).
  Proof.
    intros W. induction fuel as [|fuel IH]; intros i Hf Hi; [lia|]. cbn [sparse_form step_degree].
    destruct (nth_error_ex c i Hi) as [s Es]. rewrite Es. cbn [of_opt rbind obind]. destruct (W _ _ Es) as [R X].
    assert (VA : forall q vs, valid q c vs -> step_val q vs s = nth_error vs i).
    { intros q vs V. destruct (valid_at _ _ _ _ _ _ V Es) as [v [E1 E2]]. congruence. }
    assert (OF : forall v, sp_ok (sp_of v)) by (intros v; split; [constructor|intros k []]).
    assert (VF : forall v x, sp_val (sp_of v) x = v) by (intros v x; unfold sp_val, lin_sum; cbn; ring).
    destruct s as [l r|l r|l e|v|x]; cbn [refs] in R.
    - destruct (IH l) as [P1 [O1 C1]]; try (specialize (R l (or_introl eq_refl)); lia).
      destruct (IH r) as [P2 [O2 C2]]; try (specialize (R r (or_intror (or_introl eq_refl))); lia).
      split; [|split].
      + destruct (sparse_form fuel c l); try congruence; cbn; [|discriminate]. destruct (sparse_form fuel c r); try congruence; cbn; discriminate.
      + intros s. destruct (sparse_form fuel c l) as [s1| |]; try discriminate. cbn.
        destruct (sparse_form fuel c r) as [s2| |]; try discriminate. cbn. intros E. injection E as <-.
        destruct (O1 s1 eq_refl) as [A1 B1]. destruct (O2 s2 eq_refl) as [A2 B2]. destruct (sp_add_ok s1 s2 A1 A2) as [A3 B3].
        split; auto. intros q vs V. rewrite <- (VA q vs V). cbn. rewrite (B1 q vs V), (B2 q vs V). cbn. now rewrite B3.
      + intros d. destruct (step_degree fuel c l) as [d1|]; [|discriminate]. cbn. destruct (step_degree fuel c r) as [d2|]; [|discriminate]. cbn.
        intros E Hd. injection E as <-. destruct (C1 d1 eq_refl) as [s1 [E1 Z1]]; [lia|]. destruct (C2 d2 eq_refl) as [s2 [E2 Z2]]; [lia|].
        rewrite E1, E2. cbn. eexists. split; [reflexivity|]. intros Z. destruct (Z1 ltac:(lia)) as [K1 L1], (Z2 ltac:(lia)) as [K2 L2].
        unfold sp_add. rewrite K1, K2. cbn. rewrite K1, K2, L1, L2. split; reflexivity.
    - destruct (IH l) as [P1 [O1 C1]]; try (specialize (R l (or_introl eq_refl)); lia).
      destruct (IH r) as [P2 [O2 C2]]; try (specialize (R r (or_intror (or_introl eq_refl))); lia).
      split; [|split].
      + destruct (sparse_form fuel c l); try congruence; cbn; [|discriminate]. destruct (sparse_form fuel c r); try congruence; cbn; [|discriminate].
        unfold sp_mul. destruct (_ && _); [discriminate|]. destruct (is_nil _); discriminate.
      + intros s. destruct (sparse_form fuel c l) as [s1| |]; try discriminate. cbn.
        destruct (sparse_form fuel c r) as [s2| |]; try discriminate. cbn. intros E.
        destruct (O1 s1 eq_refl) as [A1 B1]. destruct (O2 s2 eq_refl) as [A2 B2]. destruct (sp_mul_ok s1 s2 s A1 A2 E) as [A3 B3].
        split; auto. intros q vs V. rewrite <- (VA q vs V). cbn. rewrite (B1 q vs V), (B2 q vs V). cbn. now rewrite B3.
      + intros d. destruct (step_degree fuel c l) as [d1|]; [|discriminate]. cbn. destruct (step_degree fuel c r) as [d2|]; [|discriminate]. cbn.
        intros E Hd. injection E as <-. destruct (C1 d1 eq_refl) as [s1 [E1 Z1]]; [lia|]. destruct (C2 d2 eq_refl) as [s2 [E2 Z2]]; [lia|].
        rewrite E1, E2. cbn. unfold sp_mul.
        destruct (Nat.eq_dec d1 0) as [D1|D1].
        * destruct (Z1 D1) as [K1 L1]. rewrite K1. cbn. eexists. split; [reflexivity|]. intros Z. destruct (Z2 ltac:(lia)) as [K2 L2].
          cbn. rewrite K2, L2. auto.
        * destruct (Z2 ltac:(lia)) as [K2 L2]. rewrite K2. cbn [is_nil negb]. rewrite andb_false_r.
          destruct (is_nil (sp_coeffs s1)); eexists; (split; [reflexivity|]); intros; lia.
    - destruct (IH l) as [P1 [O1 C1]]; try (specialize (R l (or_introl eq_refl)); lia). cbn in X.
      destruct (N.eqb_spec e 0) as [->|NE0]; [|destruct (N.eqb_spec e 1) as [->|NE1]].
      + split; [discriminate|]. split.
        * intros s E. injection E as <-. split; auto. intros q vs V. rewrite VF, <- (VA q vs V). cbn.
          destruct (proj1 (conj (VA q vs V) I)). cbn.
          destruct (valid_at _ _ _ _ _ _ V Es) as [v [E1 E2]]. cbn in E2. destruct (nth_error vs l) as [w|]; [|discriminate]. cbn.
          rewrite ppow_ok by auto. reflexivity.
        * intros d. destruct (step_degree fuel c l) as [d1|]; [|discriminate]. cbn. intros E _. eexists. split; [reflexivity|]. auto.
      + split; auto. split.
        * intros s E. destruct (O1 s E) as [A B]. split; auto. intros q vs V. rewrite <- (VA q vs V). cbn. rewrite (B q vs V). cbn.
          rewrite ppow_ok by auto. change (N.to_nat 1) with 1%nat. cbn [fpow]. f_equal. ring.
        * intros d. destruct (step_degree fuel c l) as [d1|]; [|discriminate]. cbn. intros E Hd. injection E as <-.
          change (Pos.to_nat 1) with 1%nat in *. destruct (C1 d1 eq_refl) as [s1 [E1 Z1]]; [lia|]. exists s1. split; auto. intros; apply Z1; lia.
      + split; [|split].
        * destruct (sparse_form fuel c l) as [s1| |]; try congruence; cbn; [|discriminate]. destruct (negb _); discriminate.
        * intros s. destruct (sparse_form fuel c l) as [s1| |]; try discriminate. cbn. destruct (O1 s1 eq_refl) as [A B].
          destruct (Nat.eqb_spec (sp_len s1) 0) as [Z|]; cbn [negb]; [|discriminate]. intros E. injection E as <-.
          split; auto. intros q vs V. rewrite VF, <- (VA q vs V). cbn. rewrite (B q vs V). cbn. f_equal. f_equal.
          unfold sp_val. destruct A as [_ A]. destruct (sp_coeffs s1) as [|[k w] m] eqn:EC.
          -- unfold lin_sum. cbn. ring.
          -- specialize (A k (or_introl eq_refl)). lia.
        * intros d. destruct (step_degree fuel c l) as [d1|]; [|discriminate]. cbn. intros E Hd. injection E as <-.
          assert (ED : (2 <= N.to_nat e)%nat) by lia.
          assert (D1 : d1 = 0%nat) by nia. destruct (C1 d1 eq_refl) as [s1 [E1 Z1]]; [lia|]. destruct (Z1 D1) as [K1 L1].
          rewrite E1. cbn. rewrite L1. cbn. eexists. split; [reflexivity|]. auto.
    - split; [discriminate|]. split.
      + intros s E. injection E as <-. split; auto. intros q vs V. rewrite VF, <- (VA q vs V). reflexivity.
      + intros d E _. eexists. split; [reflexivity|]. auto.
    - split; [discriminate|]. split.
      + intros s E. injection E as <-. split.
        * split; [repeat constructor; intros []|]. cbn. intros k [<-|[]]. lia.
        * intros q vs V. rewrite <- (VA q vs V). unfold sp_val, lin_sum. cbn.
          destruct (valid_at _ _ _ _ _ _ V Es) as [v [E1 E2]]. cbn in E2. rewrite E2. f_equal.
          rewrite (nth_error_nth _ _ 0 E2). ring.
      + intros d E Hd. injection E as <-. eexists. split; [reflexivity|]. discriminate.
  Qed.

  Lemma dense_ok : forall (m : list (nat * F)) l x, NoDup (map fst m) -> (forall k, In k (map fst m) -> (k < length l)%nat /\ nth k l 0 = 0) ->
    exists l', ofold (fun l kc => if (fst kc <? length l)%nat then Some (upd l (fst kc) (snd kc)) else None) m l = Some l' /\
      length l' = length l /\
      sumn (length l) (fun i => nth i l' 0 * x i) = sumn (length l) (fun i => nth i l 0 * x i) + lin_sum m x.
  Proof.
    induction m as [|[k c] m IH]; intros l x ND H; cbn [ofold fst snd].
    - exists l. repeat split. unfold lin_sum. cbn. ring.
    - cbn in ND. inversion ND as [|? ? N1 N2]; subst. destruct (H k) as [Hk Zk]; [now left|]. rewrite (proj2 (Nat.ltb_lt _ _) Hk).
      destruct (IH (upd l k c) x N2) as [l' [E [L S]]].
      { intros j Hj. rewrite upd_length. destruct (H j) as [Hj1 Hj2]; [now right|]. split; auto. rewrite upd_nth.
        destruct (Nat.eqb_spec j k) as [->|NE]; [tauto|]. auto. }
      exists l'. rewrite upd_length in *. split; auto. split; auto. rewrite S.
      assert (S2 : sumn (length l) (fun i => nth i (upd l k c) 0 * x i) = sumn (length l) (fun i => nth i l 0 * x i) + c * x k).
      { assert (S3 : sumn (length l) (fun i => if (i =? k)%nat then c * x i else 0) = c * x k).
        { rewrite (sumn_single F (length l) k); [now rewrite Nat.eqb_refl|auto|]. intros i Hi NE. now rewrite (proj2 (Nat.eqb_neq i k)). }
        rewrite <- S3.
        rewrite <- sumn_add. apply sumn_ext. intros i Hi. rewrite upd_nth, (proj2 (Nat.ltb_lt _ _) Hk), andb_true_r.
        destruct (Nat.eqb_spec i k) as [->|NE]; [rewrite Zk|]; ring. }
      rewrite S2. unfold lin_sum. cbn. ring.
  Qed.

  (** C23: [linear_normal_form] never panics on a well-formed circuit; the form it returns computes
      the same function; and it succeeds on every circuit of degree at most one. *)
  Theorem linear_normal_form_correct c : cwf c ->
    linear_normal_form c <> Panic /\
    (forall k coeffs, linear_normal_form c = Ok (k, coeffs) ->
      forall q v, evaluate c q = Some v -> v = k + sumn (length coeffs) (fun i => nth i coeffs 0 * nth i q 0)) /\
    (forall d, degree c = Some d -> (d <= 1)%nat -> exists k coeffs, linear_normal_form c = Ok (k, coeffs)).
  Proof.
    intros [NE W]. assert (HL : (0 < length c)%nat) by (destruct c; [congruence|cbn; lia]).
    unfold linear_normal_form, degree.
    destruct (sparse_ok c W (S (length c)) (length c - 1)) as [P [O C]]; try lia.
    assert (DN : forall s x, sp_ok s -> exists l', ofold (fun l kc => if (fst kc <? length l)%nat then Some (upd l (fst kc) (snd kc)) else None)
                           (sp_coeffs s) (repeat 0 (sp_len s)) = Some l' /\
               sumn (length l') (fun i => nth i l' 0 * x i) = lin_sum (sp_coeffs s) x).
    { intros s x [S1 S2]. destruct (dense_ok (sp_coeffs s) (repeat 0 (sp_len s)) x S1) as [l' [E [L S]]].
      - intros k Hk. rewrite repeat_length. split; auto. apply nth_repeat0. auto.
      - exists l'. split; auto. rewrite L, S. rewrite (sumn_zero F); [ring|]. intros i Hi.
        rewrite repeat_length in Hi. rewrite nth_repeat0 by auto. ring. }
    split; [|split].
    - destruct (sparse_form (S (length c)) c (length c - 1)) as [s| |]; try congruence; cbn [rbind]; [|discriminate].
      destruct (O s eq_refl) as [A _]. destruct (DN s (fun _ => 0) A) as [l' [E _]]. rewrite E. discriminate.
    - intros k coeffs. destruct (sparse_form (S (length c)) c (length c - 1)) as [s| |]; try discriminate. cbn [rbind].
      destruct (O s eq_refl) as [A B]. intros E q v Ev.
      destruct (DN s (fun j => nth j q 0) A) as [l' [El Sl]]. rewrite El in E. cbn [of_opt rbind] in E. injection E as <- <-.
      apply evaluate_valid in Ev. destruct Ev as [vs [V ->]]. rewrite Sl.
      assert (NV' : vs <> []) by (intros ->; destruct V as [LV _]; cbn in LV; lia).
      pose proof (last_nth_error F vs NV') as Q. pose proof (B q vs V) as Q'. destruct V as [LV _]. rewrite LV in Q.
      rewrite Q' in Q. injection Q as Q. rewrite <- Q. reflexivity.
    - intros d D Hd. destruct (C d D Hd) as [s [E _]]. rewrite E. cbn [rbind]. destruct (O s E) as [A _].
      destruct (DN s (fun _ => 0) A) as [l' [El _]]. rewrite El. cbn [of_opt rbind]. eauto.
  Qed.

  (** C58: the evaluation cost is defined when no exponent is zero. *)
  Theorem eval_cost_total (c : circuit F) : (forall b e, In (SPow b e) c -> e <> 0%N) -> exists x, eval_cost c = Some x.
  Proof.
    unfold eval_cost. generalize (0, 0, 0)%nat. induction c as [|s c IH]; intros [[a m] q] H; cbn [ofold]; [eauto|].
    assert (H' : forall b e, In (SPow b e) c -> e <> 0%N) by (intros b e Hin; apply (H b e); now right).
    destruct s; auto. specialize (H b e (or_introl eq_refl)). rewrite (proj2 (N.eqb_neq _ _) H). auto.
  Qed.

  Theorem eval_cost_zero_exponent_refuted : exists c : circuit F, cwf c /\ eval_cost c = None /\
    forall q, (1 <= length q)%nat -> evaluate c q = Some 1.
  Proof.
    exists [SVar 0; SPow 0 0]. split; [|split].
    - split; [discriminate|]. apply (wf_snoc F [SVar 0]); [now apply single_wf|cbn; intros r [<-|[]]; lia|reflexivity].
    - reflexivity.
    - intros q Hq. destruct q as [|x q]; [cbn in Hq; lia|]. unfold evaluate, evals. cbn.
      rewrite ppow_ok by reflexivity. reflexivity.
  Qed.
End Props.

(** Converting along an embedding of fields commutes with evaluation. *)
Theorem convert_field_correct (F G : field) (h : F -> G) (c : circuit F) q v :
  (forall x y, h (fadd x y) = fadd (h x) (h y)) -> (forall x y, h (fmul x y) = fmul (h x) (h y)) ->
  h f1 = f1 -> h f0 = f0 ->
  evaluate c q = Some v -> evaluate (convert_field h c) (map h q) = Some (h v).
Proof.
  intros HA HM H1 H0 E.
  assert (HP : forall x e, h (ppow x e) = ppow (h x) e).
  { intros x e. unfold ppow. rewrite <- H1. generalize (@f1 F). induction (rev (seq 0 64)) as [|i l IH]; intros a; [reflexivity|].
    cbn [fold_left]. cbv zeta. destruct (N.testbit e (N.of_nat i)); rewrite IH, ?HM; reflexivity. }
  assert (V : forall c vs, valid q c vs -> valid (map h q) (convert_field h c) (map h vs)).
  { clear E c v. unfold convert_field. induction c as [|s c IH] using rev_ind; intros vs V.
    - destruct V as [L _]. destruct vs; [|discriminate]. apply valid_nil.
    - apply valid_init in V. destruct V as [vs' [v [-> [V E]]]]. rewrite !map_app. cbn [map]. apply valid_snoc; auto.
      destruct s; cbn in *; rewrite ?nth_error_map'.
      + destruct (nth_error vs' l); [|discriminate]. destruct (nth_error vs' r); [|discriminate]. cbn in *. injection E as <-. now rewrite HA.
      + destruct (nth_error vs' l); [|discriminate]. destruct (nth_error vs' r); [|discriminate]. cbn in *. injection E as <-. now rewrite HM.
      + destruct (nth_error vs' b); [|discriminate]. cbn in *. injection E as <-. now rewrite HP.
      + now injection E as <-.
      + rewrite E. reflexivity. }
  apply evaluate_valid in E. destruct E as [vs [Vs ->]]. apply evaluate_valid. exists (map h vs). split; auto.
  clear - H0. induction vs as [|a vs IH]; cbn; auto. destruct vs; auto.
Qed.

(** In a build without overflow checks, nested powers are merged with a wrapped exponent. *)
Theorem optimize_wrapping_refuted : exists (c c' : circuit X16) q v w,
  cwf X16 c /\ optimize true true c = Some c' /\ evaluate c q = Some v /\ evaluate c' q = Some w /\ v <> w.
Proof.
  pose (c := [SVar 0; SPow 0 (2 ^ 32)%N; SPow 1 (2 ^ 32)%N] : circuit X16).
  exists c, [SVar 0; SPow 0 0%N], [el 2], (el 2), (el 1).
  split; [|split; [|split; [|split]]].
  - split; [discriminate|]. apply (wf_snoc X16 [SVar 0; SPow 0 (2 ^ 32)%N]).
    + apply (wf_snoc X16 [SVar 0]); [now apply single_wf|cbn; intros r [<-|[]]; lia|reflexivity].
    + cbn; intros r [<-|[]]; lia.
    + reflexivity.
  - reflexivity.
  - vm_compute. reflexivity.
  - vm_compute. reflexivity.
  - intros H. apply (f_equal bits) in H. vm_compute in H. discriminate.
Qed.

(** Hypotheses are met: x0 * (x1 + 3)^2 with a shared subexpression. *)
Example expr_ex :
  let s := @EAdd X16 11 (EVar 1) 12 (EConst (el 3)) in
  let e := EMul 10 (EVar 0) 13 (EMul 14 s 14 s) in
  let h := fun p => match p with 10 => EVar 0 | 11 => EVar 1 | 12 => EConst (el 3) | 13 => EMul 14 s 14 s | 14 => s | _ => EVar 0 end in
  stored X16 h e /\ vars_below X16 2 e /\ from_expr e = [SVar 0; SVar 1; SConst (el 3); SAdd 1 2; SMul 3 3; SMul 0 4] /\
  degree (from_expr e) = Some 3.
Proof. cbn. repeat split; auto. Qed.

Example optimize_ex : let c := [SVar 0; SConst (el 0); SAdd 0 1; SVar 1; SPow 2 3%N; SPow 4 2%N; SMul 5 3; SVar 1; SAdd 6 7] : circuit X16 in
  cwf X16 c /\ (exp_product c < 2 ^ 64)%N /\ optimize false true c = Some [SVar 0; SVar 1; SPow 0 6%N; SMul 2 1; SAdd 3 1].
Proof.
  cbv zeta. split; [|split; reflexivity]. split; [discriminate|].
  intros i s H. do 9 (destruct i as [|i]; [cbn in H; injection H as <-; split; [cbn; intros r Hr; intuition lia|reflexivity || exact I]|]).
  destruct i; discriminate.
Qed.
