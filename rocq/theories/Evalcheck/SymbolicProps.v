(** C77: instantiating the oracles of a constraint system when the sizes of its tables are known. *)
Require Import Coq.NArith.NArith Coq.Arith.Arith Coq.Lists.List Coq.Bool.Bool Lia.
From Verif Require Import Base.Fld Base.Lists Base.Sums Math.MleSpec Math.MleModel Math.ArithModel Math.ArithProofs Math.ArithProps
  Field.TowerProofs Field.Examples Transparent.TransparentModel Transparent.TransparentProps Transparent.TowerBasisProps
  Transparent.ShiftModel Sumcheck.ZerocheckModel Evalcheck.OracleModel Evalcheck.EvalModel Evalcheck.EvalSpec Evalcheck.EvalProofs Evalcheck.EvalExtend Evalcheck.OracleProps Evalcheck.SymbolicModel.
Import ListNotations.
Local Close Scope N_scope.
Local Open Scope nat_scope.

(* -------------------------------------------------------------------- *)
(** * Specification *)
Section Spec.
  Variable L : nat.
  Notation F := (TF L).
  Variable ss : sset L.
  Variable sizes : list nat.

  (** The number of rows of the table of an oracle, and the number of variables of the oracle. *)
  Definition rows (o : soracle L) : nat := nth (so_table o) sizes 0.
  Definition vars (o : soracle L) : nat :=
    match so_variant o with SymTransparent p => mv_nvars p | _ => log2_ceil (rows o) + so_lv o end.

  (** Oracle [j] comes before [i], its table has rows, and it has [m] variables. *)
  Definition older (i j m : nat) : Prop := j < i /\ exists o, nth_error ss j = Some o /\ rows o <> 0 /\ vars o = m.

  (** The declared shapes fit together: this is what [instantiate] relies on. *)
  Definition shape_ok (i n : nat) (v : svariant L) : Prop :=
    match v with
    | SymCommitted => True
    | SymTransparent p => exists t, extends_to p n t
    | SymStructured c => n <= n_vars c /\ exists t, forall q, length q = n -> evaluate c (q ++ repeat f0 (n_vars c - n)) = Some (mle t q)
    | SymRepeating j => exists m, m <= n /\ older i j m
    | SymProjected j vs (Some s) => s <= n /\ older i j (n + length vs)
    | SymProjected j vs None => vs = [] /\ older i j n
    | SymShifted j o b _ => (b <= n /\ 0 < o < 2 ^ b) /\ older i j n
    | SymPacked j d => older i j (n + d)
    | SymLinearCombination _ inner => forall j c, In (j, c) inner -> older i j n
    | SymZeroPadded j pad nz s => s + pad <= n /\ nz <= 2 ^ pad /\ older i j (n - pad)
    | SymComposite ids c => (forall j, In j ids -> older i j n) /\ cwf F c /\ n_vars c <= length ids /\ (exp_product c < 2 ^ 64)%N
    end.
  Definition shapes_ok : Prop :=
    (forall o, In o ss -> so_table o < length sizes) /\
    forall i o, nth_error ss i = Some o -> rows o <> 0 -> shape_ok i (vars o) (so_variant o).

  (** The value at the hypercube point [x] is what the declaration says. *)
  Definition declared (V : values L) (i n : nat) (v : svariant L) (x : nat) : Prop :=
    match v with
    | SymCommitted => True
    | SymTransparent p => mv_eval p (vertex n x) = Ok (V i x)
    | SymStructured c => evaluate c (vertex n x ++ repeat f0 (n_vars c - n)) = Some (V i x)
    | SymRepeating j => forall o, nth_error ss j = Some o -> V i x = V j (x mod 2 ^ vars o)
    | SymProjected j vs (Some s) => V i x = mle (V j) (vertex s x ++ vs ++ vertex (n - s) (x / 2 ^ s))
    | SymProjected j vs None => V i x = mle (V j) (vertex n x ++ vs)
    | SymShifted j o b sv => V i x = shifted_value sv b o (V j) x
    | SymPacked j d => forall o, nth_error ss j = Some o -> V i x = sumn (2 ^ d) (fun k => fmul (basis_product L (so_level o) k) (V j (x * 2 ^ d + k)))
    | SymLinearCombination off inner => V i x = (off + fold_right (fun jc acc => snd jc * V (fst jc) x + acc) 0 inner)%F
    | SymZeroPadded j pad nz s => V i x = if (x / 2 ^ s) mod 2 ^ pad =? nz then V j (x mod 2 ^ s + 2 ^ s * (x / 2 ^ (s + pad))) else f0
    | SymComposite ids c => evaluate c (map (fun j => V j x) ids) = Some (V i x)
    end.
  Definition all_declared (V : values L) : Prop :=
    forall i o, nth_error ss i = Some o -> rows o <> 0 -> forall x, x < 2 ^ vars o -> declared V i (vars o) (so_variant o) x.
End Spec.

(* -------------------------------------------------------------------- *)
Section Props.
  Variable L : nat.
  Notation F := (TF L).
  Variable sizes : list nat.

  (** what [instantiate] does for one oracle *)
  Definition one (os : oset L) (o : soracle L) : res (oset L) := instantiate_from L os [o] sizes.
  Lemma from_app ss ss' : forall os, instantiate_from L os (ss ++ ss') sizes = rbind (instantiate_from L os ss sizes) (fun os => instantiate_from L os ss' sizes).
  Proof.
    induction ss as [|o ss IH]; intros os; [reflexivity|]. cbn [app instantiate_from]. destruct (nth_error sizes (so_table o)) as [size|]; [|reflexivity].
    destruct (size =? 0); [apply IH|]. cbv zeta. destruct (instantiate_variant _ _ _ _) as [v| |]; cbn [rbind]; [apply IH|reflexivity|reflexivity].
  Qed.
  Lemma instantiate_snoc ss o : instantiate L (ss ++ [o]) sizes = rbind (instantiate L ss sizes) (fun os => one os o).
  Proof. apply from_app. Qed.

  Lemma check_grow (os ext : oset L) n ids : check_n_vars os n ids = Ok tt -> check_n_vars (os ++ ext) n ids = Ok tt.
  Proof.
    induction ids as [|id ids IH]; cbn [check_n_vars]; [auto|]. unfold n_vars_of, oget. destruct (nth_error os id) as [[o|]|] eqn:E; cbn [rbind]; try discriminate.
    rewrite (nth_error_grow _ _ _ _ E). cbn [rbind]. destruct (negb _); [discriminate|]. exact IH.
  Qed.
  Lemma variant_grow (os ext : oset L) v n w : instantiate_variant L os v n = Ok w -> instantiate_variant L (os ++ ext) v n = Ok w.
  Proof.
    assert (G : forall id m, n_vars_of os id = Ok m -> n_vars_of (os ++ ext) id = Ok m).
    { intros id m. unfold n_vars_of, oget. destruct (nth_error os id) as [[o|]|] eqn:E; cbn [rbind]; try discriminate. now rewrite (nth_error_grow _ _ _ _ E). }
    assert (G' : forall A id (k : nat -> res A) a, rbind (n_vars_of os id) k = Ok a -> rbind (n_vars_of (os ++ ext) id) k = Ok a).
    { intros A id k a H. destruct (n_vars_of os id) as [m| |] eqn:E; cbn [rbind] in H; try discriminate. now rewrite (G _ _ E). }
    destruct v as [| p | c | id | id vs st | id o b sv | id d | off inner | id pad nz s | ids c]; cbn [instantiate_variant]; auto.
    - destruct (match st with Some o => Ok o | None => _ end) as [s| |]; cbn [rbind]; auto.
    - destruct (check_n_vars os n (map fst inner)) as [[]| |] eqn:E; cbn [rbind]; try discriminate. now rewrite (check_grow _ _ _ _ E).
    - destruct (check_n_vars os n ids) as [[]| |] eqn:E; cbn [rbind]; try discriminate. now rewrite (check_grow _ _ _ _ E).
  Qed.

  (** [os] is the instance of [ss] *)
  Definition instance_of (ss : sset L) (os : oset L) : Prop :=
    length os = length ss /\ oset_ok os /\
    forall i o, nth_error ss i = Some o ->
      (rows L sizes o = 0 -> nth_error os i = Some None) /\
      (rows L sizes o <> 0 -> exists v, nth_error os i = Some (Some (mkOracle (vars L sizes o) (so_level o) v)) /\ instantiate_variant L os (so_variant o) (vars L sizes o) = Ok v).

  Lemma older_refers ss os i j m : instance_of ss os -> i = length os -> older L ss sizes i j m -> refers os i j m.
  Proof.
    intros (IL & _ & IO) -> (H & o & E & R & <-). split; [exact H|]. destruct (IO j o E) as [_ I2]. destruct (I2 R) as (v & Ev & _). eexists. split; [exact Ev|]. reflexivity.
  Qed.
  Lemma refers_n_vars (os : oset L) i j m : refers os i j m -> n_vars_of os j = Ok m.
  Proof. intros (_ & o & E & <-). unfold n_vars_of, oget. now rewrite E. Qed.

  Lemma variant_step ss os n v : instance_of ss os -> shape_ok L ss sizes (length ss) n v ->
    exists w, instantiate_variant L os v n = Ok w /\ variant_ok os (length os) n w.
  Proof.
    intros IN SH. assert (LS : length ss = length os) by (symmetry; apply IN). rewrite LS in SH.
    assert (RF : forall j m, older L ss sizes (length os) j m -> refers os (length os) j m) by (intros j m; now apply older_refers with (ss := ss)).
    assert (RN : forall j m, older L ss sizes (length os) j m -> n_vars_of os j = Ok m) by (intros j m H; eapply refers_n_vars; eauto).
    destruct v as [| p | c | j | j vs st | j off b sv | j d | off inner | j pad nz s | ids c]; cbn [shape_ok instantiate_variant] in *.
    - eexists. split; [reflexivity|exact I].
    - eexists. split; [reflexivity|exact SH].
    - eexists. split; [reflexivity|exact SH].
    - destruct SH as (m & Hm & O). rewrite (RN _ _ O). cbn [rbind]. rewrite (proj2 (Nat.ltb_ge _ _) Hm). eexists. split; [reflexivity|]. split; [lia|].
      replace (n - (n - m)) with m by lia. auto.
    - destruct st as [s|]; cbn [rbind].
      + destruct SH as (Hs & O). rewrite (RN _ _ O). cbn [rbind]. rewrite (proj2 (Nat.ltb_ge _ _)) by lia. eexists. split; [reflexivity|]. split; auto.
      + destruct SH as (-> & O). cbn [length]. rewrite (proj2 (Nat.ltb_ge _ _)) by lia. cbn [rbind]. rewrite (RN _ _ O). cbn [rbind]. rewrite (proj2 (Nat.ltb_ge _ _)) by lia.
        eexists. split; [reflexivity|]. split; [lia|]. cbn [length]. rewrite Nat.add_0_r. auto.
    - destruct SH as ((H1 & H2 & H3) & O). rewrite (RN _ _ O). cbn [rbind]. rewrite (proj2 (Nat.ltb_ge _ _)) by lia.
      rewrite (proj2 (Nat.eqb_neq off 0)) by lia. rewrite (proj2 (Nat.leb_gt _ _)) by lia. cbn [orb]. eexists. split; [reflexivity|]. split; auto.
    - eexists. split; [reflexivity|]. cbn [variant_ok]. auto.
    - rewrite check_all.
      + cbn [rbind]. eexists. split; [reflexivity|]. split; [reflexivity|]. intros i c Hi. apply RF. eauto.
      + intros id Hi. apply in_map_iff in Hi as ([j c] & <- & Hi). destruct (RF _ _ (SH j c Hi)) as (_ & o & E & En). exists o. split; auto.
    - destruct SH as (H1 & H2 & O). rewrite (RN _ _ O). cbn [rbind]. rewrite !(proj2 (Nat.ltb_ge _ _)) by lia. eexists. split; [reflexivity|]. split; auto.
    - destruct SH as (O & W & HN & HE). rewrite check_all.
      + cbn [rbind]. destruct (optimize_correct F true c (fun _ => TF_char2 L) W HE) as (c' & EO & W' & _ & EV). rewrite EO.
        assert (NV : n_vars c' <= length ids).
        { destruct W as [NE W]. destruct (wf_evaluate L c (repeat f0 (length ids)) W) as [v Ev]; [now rewrite repeat_length|].
          apply EV in Ev. apply evaluate_valid in Ev. destruct Ev as (vs & Hv & _). apply valid_nvars in Hv. now rewrite repeat_length in Hv. }
        rewrite (proj2 (Nat.ltb_ge _ _) NV). eexists. split; [reflexivity|]. split; [reflexivity|]. split; [auto|]. destruct W' as [W1 W2]. auto.
      + intros j Hj. destruct (RF _ _ (O j Hj)) as (_ & o & E & En). exists o. split; auto.
  Qed.

  Lemma snoc_none (os : oset L) : oset_ok os -> oset_ok (os ++ [None]).
  Proof.
    intros H id o E. destruct (Nat.lt_ge_cases id (length os)) as [Hl|Hl].
    - rewrite nth_error_app1 in E by auto. apply variant_ok_app. now apply H.
    - rewrite nth_error_app2 in E by auto. destruct (id - length os) as [|[|k]]; discriminate.
  Qed.

  Lemma older_prefix ss ext i j m : i <= length ss -> older L (ss ++ ext) sizes i j m -> older L ss sizes i j m.
  Proof. intros Hi (H & o & E & R). split; [exact H|]. exists o. rewrite nth_error_app1 in E by lia. auto. Qed.
  Lemma shape_prefix ss ext i n v : i <= length ss -> shape_ok L (ss ++ ext) sizes i n v -> shape_ok L ss sizes i n v.
  Proof.
    intros Hi. pose proof (fun j m => older_prefix ss ext i j m Hi) as P.
    destruct v as [| p | c | j | j vs [s|] | j off b sv | j d | off inner | j pad nz s | ids c]; cbn [shape_ok]; auto.
    - intros (m & H1 & H2). eauto.
    - intros (H1 & H2). auto.
    - intros (H1 & H2). auto.
    - intros (H1 & H2). auto.
    - intros H j c Hj. eauto.
    - intros (H1 & H2 & H3). auto.
    - intros (H1 & H2). split; auto.
  Qed.

  Lemma instantiated ss : shapes_ok L ss sizes -> exists os, instantiate L ss sizes = Ok os /\ instance_of ss os.
  Proof.
    induction ss as [|o ss IH] using rev_ind; intros (HT & HS).
    - exists []. split; [reflexivity|]. split; [reflexivity|]. split; [intros [|id] o E; discriminate|]. intros [|i] o E; discriminate.
    - destruct IH as (os & EI & IN).
      { split; [intros o' H; apply HT, in_or_app; now left|]. intros i o' E R. pose proof (nth_error_Some ss i) as LT. assert (i < length ss) by (apply LT; congruence).
        apply shape_prefix with (ext := [o]); [lia|]. apply HS; [now apply nth_error_grow|exact R]. }
      pose proof IN as (IL & OKS & IO). rewrite instantiate_snoc, EI. cbn [rbind]. unfold one. cbn [instantiate_from].
      assert (LT : so_table o < length sizes) by (apply HT, in_or_app; right; now left).
      assert (ET : nth_error sizes (so_table o) = Some (rows L sizes o)) by (unfold rows; now apply nth_error_nth'). rewrite ET.
      destruct (Nat.eqb_spec (rows L sizes o) 0) as [Z|NZ].
      + exists (os ++ [None]). split; [reflexivity|]. split; [rewrite !app_length; cbn [length]; lia|]. split; [now apply snoc_none|].
        intros i o' E. destruct (Nat.lt_ge_cases i (length ss)) as [Hl|Hl].
        * rewrite nth_error_app1 in E by exact Hl. destruct (IO i o' E) as [I1 I2]. split; intros H.
          -- apply nth_error_grow. auto.
          -- destruct (I2 H) as (v & E1 & E2). exists v. split; [now apply nth_error_grow|now apply variant_grow].
        * rewrite nth_error_app2 in E by exact Hl. destruct (i - length ss) as [|[|k]] eqn:EK; try discriminate. injection E as <-. replace i with (length os) by lia.
          split; intros H; [apply nth_error_last|contradiction].
      + assert (SH : shape_ok L ss sizes (length ss) (vars L sizes o) (so_variant o)).
        { apply shape_prefix with (ext := [o]); [lia|]. apply HS; [apply nth_error_last|exact NZ]. }
        destruct (variant_step ss os _ _ IN SH) as (w & EW & OKW).
        replace (instance_n_vars L o (rows L sizes o)) with (vars L sizes o) by reflexivity. cbv zeta. rewrite EW. cbn [rbind add_to_set fst instantiate_from].
        eexists. split; [reflexivity|]. split; [rewrite !app_length; cbn [length]; lia|]. split; [now apply oset_ok_snoc|].
        intros i o' E. destruct (Nat.lt_ge_cases i (length ss)) as [Hl|Hl].
        * rewrite nth_error_app1 in E by exact Hl. destruct (IO i o' E) as [I1 I2]. split; intros H.
          -- apply nth_error_grow. auto.
          -- destruct (I2 H) as (v & E1 & E2). exists v. split; [now apply nth_error_grow|now apply variant_grow].
        * rewrite nth_error_app2 in E by exact Hl. destruct (i - length ss) as [|[|k]] eqn:EK; try discriminate. injection E as <-. replace i with (length os) by lia.
          split; intros H; [contradiction|]. exists w. split; [apply nth_error_last|now apply variant_grow].
  Qed.

  (** the values of an instantiated oracle *)
  Lemma declared_iff ss os i o v V x : instance_of ss os -> shape_ok L ss sizes i (vars L sizes o) (so_variant o) -> nth_error ss i = Some o ->
    instantiate_variant L os (so_variant o) (vars L sizes o) = Ok v -> (declared L ss sizes V i (vars L sizes o) (so_variant o) x <-> defined_at os V i (vars L sizes o) v x).
  Proof.
    intros (IL & _ & IO) SH E EV.
    assert (RN : forall j m, older L ss sizes i j m -> exists o' w, nth_error ss j = Some o' /\ vars L sizes o' = m /\ nth_error os j = Some (Some (mkOracle m (so_level o') w)) /\ n_vars_of os j = Ok m).
    { intros j m (H & o' & E' & R & Hv). destruct (IO j o' E') as [_ I2]. destruct (I2 R) as (w & Ew & _). exists o', w. rewrite Hv in Ew. split; [exact E'|]. split; [exact Hv|]. split; [exact Ew|].
      unfold n_vars_of, oget. now rewrite Ew. }
    set (n := vars L sizes o) in *. destruct (so_variant o) as [| p | c | j | j vs st | j off b sv | j d | off inner | j pad nz s | ids c]; cbn [shape_ok instantiate_variant declared] in *.
    - injection EV as <-. cbn [defined_at]. tauto.
    - injection EV as <-. cbn [defined_at]. tauto.
    - injection EV as <-. cbn [defined_at]. tauto.
    - destruct SH as (m & Hm & O). destruct (RN _ _ O) as (o' & w & E1 & E2 & E3 & E4). rewrite E4 in EV. cbn [rbind] in EV. rewrite (proj2 (Nat.ltb_ge _ _) Hm) in EV. injection EV as <-. cbn [defined_at].
      replace (n - (n - m)) with m by lia. split; intros H; [now rewrite (H o' E1), E2|]. intros o2 E5. assert (o2 = o') as -> by congruence. now rewrite E2.
    - destruct st as [s|]; cbn [rbind] in EV.
      + destruct SH as (Hs & O). destruct (RN _ _ O) as (o' & w & E1 & E2 & E3 & E4). rewrite E4 in EV. cbn [rbind] in EV. rewrite (proj2 (Nat.ltb_ge _ _)) in EV by lia. injection EV as <-. cbn [defined_at]. tauto.
      + destruct SH as (-> & O). cbn [length] in EV. rewrite (proj2 (Nat.ltb_ge n 0)) in EV by lia. cbn [rbind] in EV. destruct (RN _ _ O) as (o' & w & E1 & E2 & E3 & E4). rewrite E4 in EV. cbn [rbind] in EV.
        rewrite (proj2 (Nat.ltb_ge _ _)) in EV by lia. injection EV as <-. cbn [defined_at]. rewrite Nat.sub_0_r, Nat.sub_diag. cbn [vertex app]. tauto.
    - destruct SH as (H1 & O). destruct (RN _ _ O) as (o' & w & E1 & E2 & E3 & E4). rewrite E4 in EV. cbn [rbind] in EV. rewrite (proj2 (Nat.ltb_ge _ _)) in EV by lia.
      rewrite (proj2 (Nat.eqb_neq off 0)), (proj2 (Nat.leb_gt _ _)) in EV by lia. cbn [orb] in EV. injection EV as <-. cbn [defined_at]. tauto.
    - injection EV as <-. destruct (RN _ _ SH) as (o' & w & E1 & E2 & E3 & E4). cbn [defined_at]. split; intros H.
      + intros inner EI. rewrite E3 in EI. injection EI as <-. cbn [o_level]. exact (H o' E1).
      + intros o2 E5. assert (o2 = o') as -> by congruence. exact (H _ E3).
    - destruct (check_n_vars _ _ _) as [[]| |]; cbn [rbind] in EV; try discriminate. injection EV as <-. cbn [defined_at]. tauto.
    - destruct SH as (H1 & H2 & O). destruct (RN _ _ O) as (o' & w & E1 & E2 & E3 & E4). rewrite E4 in EV. cbn [rbind] in EV. rewrite !(proj2 (Nat.ltb_ge _ _)) in EV by lia. injection EV as <-. cbn [defined_at]. tauto.
    - destruct SH as (O & W & HN & HE). destruct (check_n_vars _ _ _) as [[]| |]; cbn [rbind] in EV; try discriminate.
      destruct (optimize_correct F true c (fun _ => TF_char2 L) W HE) as (c' & EO & W' & _ & EQ). rewrite EO in EV. destruct (length ids <? n_vars c'); [discriminate|]. injection EV as <-. cbn [defined_at].
      destruct W as [NE W]. destruct (wf_evaluate L c (map (fun j => V j x) ids) W) as [u Eu]; [now rewrite map_length|]. rewrite Eu, (EQ _ _ Eu). tauto.
  Qed.

  (** C77: when the declared shapes fit together, the oracles can be instantiated for the given numbers of rows.  Those of tables without
      rows are skipped; the others have the declared number of variables and level, satisfy everything the reductions of evaluation claims
      rely on, and their values are the declared ones. *)
  Theorem instantiate_correct (ss : sset L) : shapes_ok L ss sizes -> exists os, instantiate L ss sizes = Ok os /\ length os = length ss /\ oset_ok os /\
    (forall i o, nth_error ss i = Some o ->
       if rows L sizes o =? 0 then nth_error os i = Some None
       else exists v, nth_error os i = Some (Some (mkOracle (vars L sizes o) (so_level o) v)) /\ (so_variant o = SymCommitted <-> v = Committed)) /\
    forall V, consistent os V <-> all_declared L ss sizes V.
  Proof.
    intros SH. destruct (instantiated ss SH) as (os & EI & IN). exists os. split; [exact EI|]. pose proof IN as (IL & OKS & IO). split; [exact IL|]. split; [exact OKS|]. split.
    - intros i o E. destruct (IO i o E) as [I1 I2]. destruct (Nat.eqb_spec (rows L sizes o) 0) as [Z|NZ]; [auto|]. destruct (I2 NZ) as (v & E1 & E2). exists v. split; [exact E1|].
      clear - E2. destruct (so_variant o) as [| p | c | j | j vs st | j off b sv | j d | off inner | j pad nz s | ids c]; cbn [instantiate_variant] in E2.
      1, 2, 3, 7: injection E2 as <-; split; intros; congruence.
      + destruct (n_vars_of _ _); cbn [rbind] in E2; try discriminate. destruct (_ <? _); [discriminate|]. injection E2 as <-. split; discriminate.
      + destruct (match st with Some o => Ok o | None => _ end); cbn [rbind] in E2; try discriminate. destruct (n_vars_of _ _); cbn [rbind] in E2; try discriminate. destruct (_ <? _); [discriminate|]. injection E2 as <-. split; discriminate.
      + destruct (n_vars_of _ _); cbn [rbind] in E2; try discriminate. destruct (_ <? _); [discriminate|]. destruct (_ || _); [discriminate|]. injection E2 as <-. split; discriminate.
      + destruct (check_n_vars _ _ _); cbn [rbind] in E2; try discriminate. injection E2 as <-. split; discriminate.
      + destruct (n_vars_of _ _); cbn [rbind] in E2; try discriminate. destruct (_ <? _); [discriminate|]. destruct (_ <? _); [discriminate|]. injection E2 as <-. split; discriminate.
      + destruct (check_n_vars _ _ _); cbn [rbind] in E2; try discriminate. destruct (optimize _ _ _); [|discriminate]. destruct (_ <? _); [discriminate|]. injection E2 as <-. split; discriminate.
    - intros V. split.
      + intros C i o E R x Hx. destruct (IO i o E) as [_ I2]. destruct (I2 R) as (v & E1 & E2). apply (declared_iff ss os i o v V x IN (proj2 SH i o E R) E E2). exact (C i _ E1 x Hx).
      + intros D i oc E x Hx. assert (LT : i < length ss) by (rewrite <- IL; apply nth_error_Some; congruence). apply nth_error_Some in LT. destruct (nth_error ss i) as [o|] eqn:EO; [|congruence].
        destruct (IO i o EO) as [I1 I2]. destruct (Nat.eq_dec (rows L sizes o) 0) as [Z|NZ]; [rewrite (I1 Z) in E; discriminate|]. destruct (I2 NZ) as (v & E1 & E2).
        rewrite E1 in E. injection E as <-. cbn [o_nvars o_variant] in *. apply (declared_iff ss os i o v V x IN (proj2 SH i o EO NZ) EO E2). now apply D.
  Qed.

  Local Lemma ok_inj {A} (a b : A) : Ok a = Ok b -> a = b.
  Proof. congruence. Qed.
  (** what is checked about an oracle when the sizes are known *)
  Definition checked (os : oset L) (id n : nat) (v : variant L) : Prop :=
    match v with
    | Repeating j k => exists m, refers os id j m /\ m + k = n
    | Projected j vs s => exists m, refers os id j m /\ length vs + s <= m
    | Shifted j o b _ => exists m, refers os id j m /\ b <= m /\ 0 < o < 2 ^ b
    | ZeroPadded j pad nz s => exists m, refers os id j m /\ s <= m /\ nz <= 2 ^ pad
    | LinearCombination m _ inner => m = n /\ forall j c, In (j, c) inner -> refers os id j n
    | Composite m ids c => m = n /\ (forall j, In j ids -> refers os id j n) /\ ArithModel.n_vars c <= length ids
    | _ => True
    end.
  Lemma refers_more (os ext : oset L) i j m : refers os i j m -> refers (os ++ ext) i j m.
  Proof. intros (H & o & E & N). split; [exact H|]. exists o. split; [now apply nth_error_grow|exact N]. Qed.
  Lemma checked_more os ext id n v : checked os id n v -> checked (os ++ ext) id n v.
  Proof.
    destruct v; cbn [checked]; auto.
    1, 2, 3, 5: intros (m & R & H); exists m; split; [now apply refers_more|exact H].
    - intros (E & R). split; [exact E|]. intros j c HI. apply refers_more. eauto.
    - intros (E & R & H). split; [exact E|]. split; [|exact H]. intros j HI. apply refers_more. auto.
  Qed.
  Lemma n_vars_refers (os : oset L) j m : n_vars_of os j = Ok m -> refers os (length os) j m.
  Proof.
    unfold n_vars_of, oget. destruct (nth_error os j) as [[o|]|] eqn:E; cbn [rbind]; try discriminate. intros H. apply ok_inj in H. split; [apply nth_error_Some; congruence|]. eauto.
  Qed.
  Lemma check_refers (os : oset L) n ids : check_n_vars os n ids = Ok tt -> forall j, In j ids -> refers os (length os) j n.
  Proof.
    induction ids as [|i ids IH]; cbn [check_n_vars]; [intros _ j []|]. destruct (n_vars_of os i) as [m| |] eqn:E; cbn [rbind]; try discriminate.
    destruct (Nat.eqb_spec m n) as [->|]; cbn [negb]; [|discriminate]. intros H j [<-|HI]; [now apply n_vars_refers|auto].
  Qed.
  Lemma variant_checked os v n x : instantiate_variant L os v n = Ok x -> checked os (length os) n x.
  Proof.
    destruct v as [| p | c | j | j vs st | j off b sv | j d | off inner | j pad nz s | ids c]; cbn [instantiate_variant].
    1, 2, 3, 7: intros E; apply ok_inj in E; subst x; exact I.
    - destruct (n_vars_of os j) as [m| |] eqn:E; cbn [rbind]; try discriminate. destruct (Nat.ltb_spec n m); [discriminate|]. intros H'. apply ok_inj in H'. subst x.
      exists m. split; [now apply n_vars_refers|lia].
    - destruct (match st with Some o => Ok o | None => _ end) as [s| |]; cbn [rbind]; try discriminate.
      destruct (n_vars_of os j) as [m| |] eqn:E; cbn [rbind]; try discriminate. destruct (Nat.ltb_spec m (length vs + s)); [discriminate|]. intros H'. apply ok_inj in H'. subst x.
      exists m. split; [now apply n_vars_refers|lia].
    - destruct (n_vars_of os j) as [m| |] eqn:E; cbn [rbind]; try discriminate. destruct (Nat.ltb_spec m b); [discriminate|].
      destruct (Nat.eqb_spec off 0); cbn [orb]; [discriminate|]. destruct (Nat.leb_spec (2 ^ b) off); [discriminate|]. intros H'. apply ok_inj in H'. subst x.
      exists m. split; [now apply n_vars_refers|lia].
    - destruct (check_n_vars os n (map fst inner)) as [[]| |] eqn:E; cbn [rbind]; try discriminate. intros H'. apply ok_inj in H'. subst x.
      split; [reflexivity|]. intros j c HI. apply (check_refers _ _ _ E). apply in_map_iff. exists (j, c). auto.
    - destruct (n_vars_of os j) as [m| |] eqn:E; cbn [rbind]; try discriminate. destruct (Nat.ltb_spec m s); [discriminate|]. destruct (Nat.ltb_spec (2 ^ pad) nz); [discriminate|].
      intros H'. apply ok_inj in H'. subst x. exists m. split; [now apply n_vars_refers|lia].
    - destruct (check_n_vars os n ids) as [[]| |] eqn:E; cbn [rbind]; try discriminate. destruct (optimize false true c) as [c'|]; [|discriminate].
      destruct (Nat.ltb_spec (length ids) (ArithModel.n_vars c')); [discriminate|]. intros H'. apply ok_inj in H'. subst x. split; [reflexivity|]. split; [now apply check_refers|assumption].
  Qed.
  Lemma from_checked ss : forall os os', instantiate_from L os ss sizes = Ok os' ->
    (forall id o, nth_error os id = Some (Some o) -> checked os id (o_nvars o) (o_variant o)) ->
    forall id o, nth_error os' id = Some (Some o) -> checked os' id (o_nvars o) (o_variant o).
  Proof.
    assert (S : forall os y, (forall id o, nth_error os id = Some (Some o) -> checked os id (o_nvars o) (o_variant o)) ->
       (forall o, y = Some o -> checked os (length os) (o_nvars o) (o_variant o)) ->
       forall id o, nth_error (os ++ [y]) id = Some (Some o) -> checked (os ++ [y]) id (o_nvars o) (o_variant o)).
    { intros os y H HY id o E. apply checked_more. destruct (Nat.lt_ge_cases id (length os)) as [LT|GE].
      - rewrite nth_error_app1 in E by exact LT. auto.
      - rewrite nth_error_app2 in E by exact GE. destruct (id - length os) as [|k] eqn:D; cbn [nth_error] in E.
        + replace id with (length os) by lia. apply HY. congruence.
        + destruct k; discriminate E. }
    induction ss as [|a ss IH]; intros os os' E H; cbn [instantiate_from] in E.
    - apply ok_inj in E. subst os'. exact H.
    - destruct (nth_error sizes (so_table a)) as [size|]; [|discriminate]. destruct (size =? 0).
      + apply (IH _ _ E). apply S; [exact H|discriminate].
      + cbv zeta in E. destruct (instantiate_variant L os (so_variant a) (instance_n_vars L a size)) as [v| |] eqn:EV; cbn [rbind] in E; try discriminate.
        apply (IH _ _ E). apply S; [exact H|]. intros o Y. injection Y as <-. cbn [o_nvars o_variant]. eapply variant_checked. exact EV.
  Qed.
  (** Conversely, whatever the declarations are, what comes out has passed these checks; anything else is an error. *)
  Theorem instantiate_checks (ss : sset L) os : instantiate L ss sizes = Ok os ->
    forall id o, nth_error os id = Some (Some o) -> checked os id (o_nvars o) (o_variant o).
  Proof. intros E. apply (from_checked ss [] os E). intros [|id] o H; discriminate H. Qed.

  (** A table without a size is an error. *)
  Theorem instantiate_missing (ss : sset L) o : In o ss -> length sizes <= so_table o -> forall os, instantiate L ss sizes <> Ok os.
  Proof.
    intros HI HL. unfold instantiate. generalize (@nil (option (oracle L))). induction ss as [|a ss IH]; [destruct HI|]. intros os0 os. cbn [instantiate_from].
    destruct HI as [<-|HI].
    - rewrite (proj2 (nth_error_None _ _) HL). discriminate.
    - destruct (nth_error sizes (so_table a)) as [size|]; [|discriminate]. destruct (size =? 0); [now apply IH|]. cbv zeta. destruct (instantiate_variant _ _ _ _); cbn [rbind]; [now apply IH|discriminate|discriminate].
  Qed.
End Props.

(* -------------------------------------------------------------------- *)
(** * Examples *)
(** Two tables; the first holds a column with two values per row, the parts of it that a table builder derives, and a constant. *)
Definition sym16 : sset 2 := [
  mkSym 0 1 1 SymCommitted;
  mkSym 0 0 1 (SymProjected 0 [f1] (Some 0));
  mkSym 0 1 1 (SymShifted 0 1 1 CircularLeft);
  mkSym 0 0 2 (SymPacked 0 1);
  mkSym 1 0 0 SymCommitted;
  mkSym 0 1 2 (SymLinearCombination (el 5) [(0, el 3); (2, el 7)])].

Fact sym16_built :
  (let '(ss, id) := sym_committed 2 [] 0 1 1 in
   try x <- sym_projected 2 ss 0 0 id [f1] (Some 0);
   try x <- sym_shifted 2 (fst x) 0 1 id 1 1 CircularLeft; let id2 := snd x in
   try x <- sym_packed 2 (fst x) 0 0 id 1;
   let '(ss, _) := sym_committed 2 (fst x) 1 0 0 in
   try x <- sym_linear_combination 2 ss 0 1 (el 5) [(id, el 3); (id2, el 7)];
   Ok (fst x)) = Ok sym16.
Proof. vm_compute. reflexivity. Qed.

Fact sym16_shapes : shapes_ok 2 sym16 [3; 0] /\ shapes_ok 2 sym16 [4; 1].
Proof.
  assert (R : forall n1 (i j m : nat) o, j < i -> nth_error sym16 j = Some o -> rows 2 [n1; 0] o <> 0 -> vars 2 [n1; 0] o = m -> older 2 sym16 [n1; 0] i j m) by (intros; split; eauto).
  assert (R' : forall n1 (i j m : nat) o, j < i -> nth_error sym16 j = Some o -> rows 2 [n1; 1] o <> 0 -> vars 2 [n1; 1] o = m -> older 2 sym16 [n1; 1] i j m) by (intros; split; eauto).
  split; (split; [intros o [<-|[<-|[<-|[<-|[<-|[<-|[]]]]]]]; cbn; lia|]); intros i o E NZ;
    destruct i as [|[|[|[|[|[|i]]]]]]; cbn [nth_error sym16] in E; try (destruct i; discriminate); injection E as <-; cbn [shape_ok so_variant]; auto.
  all: try (exfalso; apply NZ; reflexivity).
  - split; [cbn; lia|]. eapply R; [lia|reflexivity|discriminate|reflexivity].
  - split; [cbn; lia|]. eapply R; [lia|reflexivity|discriminate|reflexivity].
  - eapply R; [lia|reflexivity|discriminate|reflexivity].
  - intros j c [H|[H|[]]]; injection H as <- <-; (eapply R; [lia|reflexivity|discriminate|reflexivity]).
  - split; [cbn; lia|]. eapply R'; [lia|reflexivity|discriminate|reflexivity].
  - split; [cbn; lia|]. eapply R'; [lia|reflexivity|discriminate|reflexivity].
  - eapply R'; [lia|reflexivity|discriminate|reflexivity].
  - intros j c [H|[H|[]]]; injection H as <- <-; (eapply R'; [lia|reflexivity|discriminate|reflexivity]).
Qed.

Fact sym16_instance : instantiate 2 sym16 [3; 0] = Ok [
  Some (mkOracle 3 1 Committed); Some (mkOracle 2 1 (Projected 0 [f1] 0)); Some (mkOracle 3 1 (Shifted 0 1 1 CircularLeft));
  Some (mkOracle 2 2 (Packed 0 1)); None; Some (mkOracle 3 2 (LinearCombination 3 (el 5) [(0, el 3); (2, el 7)]))].
Proof. reflexivity. Qed.

(** Projecting the last variables (projected_last_vars) of a column with three variables, one value for the last of them: [instantiate]
    subtracts the number of values from the variables that are left, and projects the middle one. *)
Theorem projected_last_refuted : exists (ss : sset 2) os V, snd (sym_committed 2 [] 0 1 2) = 0 /\
  sym_projected 2 (fst (sym_committed 2 [] 0 1 2)) 0 0 0 [f1] None = Ok (ss, 1) /\
  instantiate 2 ss [4] = Ok os /\ oset_ok os /\ consistent os V /\
  ~ declared 2 ss [4] V 1 2 (SymProjected 0 [f1] None) 1.
Proof.
  exists [mkSym 0 1 2 SymCommitted; mkSym 0 0 2 (SymProjected 0 [f1] None)].
  exists [Some (mkOracle 3 2 Committed); Some (mkOracle 2 2 (Projected 0 [f1] 1))].
  pose (v := fun x : nat => nth x (map el [0; 1; 2; 3; 4; 5; 6; 7]%N) (f0 : X16)).
  exists (fun i x => if i =? 0 then v x else mle v (vertex 1 x ++ [f1] ++ vertex 1 (x / 2))).
  split; [reflexivity|]. split; [reflexivity|]. split; [reflexivity|]. split; [|split].
  - intros [|[|[|id]]] o E; try discriminate; injection E as <-; cbn; auto. split; [lia|]. split; [lia|]. eexists. split; reflexivity.
  - intros [|[|[|id]]] o E x Hx; try discriminate; injection E as <-; cbn [o_variant defined_at]; auto.
  - cbn [declared Nat.eqb]. intros H. apply (f_equal (@enc 2)) in H. vm_compute in H. discriminate.
Qed.

(** A column of one table derived from a column of another one, or declared with the wrong number of values per row: only linear
    combinations and compositions are rejected. *)
Theorem foreign_shift_refuted : exists (ss : sset 2) os,
  sym_shifted 2 (fst (sym_committed 2 [] 0 0 2)) 1 0 0 1 1 CircularLeft = Ok (ss, 1) /\ instantiate 2 ss [2; 4] = Ok os /\ ~ oset_ok os.
Proof.
  do 2 eexists. split; [reflexivity|]. split; [reflexivity|]. intros OK. specialize (OK 1 _ eq_refl). cbn in OK. destruct OK as (_ & _ & o & E & N). injection E as <-. discriminate N.
Qed.
Theorem packed_shape_refuted : exists (ss : sset 2) os,
  sym_packed 2 (fst (sym_committed 2 [] 0 0 0)) 0 0 0 1 = Ok (ss, 1) /\ instantiate 2 ss [4] = Ok os /\ ~ oset_ok os.
Proof.
  do 2 eexists. split; [reflexivity|]. split; [reflexivity|]. intros OK. specialize (OK 1 _ eq_refl). cbn in OK. destruct OK as (_ & o & E & N). injection E as <-. discriminate N.
Qed.
