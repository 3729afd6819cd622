(** C74: the composite oracles that channel flushes with selectors are turned into are compiled correctly, and have a degree of one
    more than the number of selectors. *)
Require Import Coq.NArith.NArith Coq.Arith.Arith Coq.Lists.List Coq.Bool.Bool Lia.
From Verif Require Import Base.Fld Base.Lists Base.Sums Math.ArithModel Math.ArithProofs Math.ArithProps Math.ArithOpt Math.ArithTree Evalcheck.EvalProofs
  Field.TowerProofs Protocol.Proto Compute.CircuitPolyModel Compute.CircuitPolyProps Sumcheck.SumcheckModel
  Evalcheck.OracleModel Evalcheck.GreedyModel Evalcheck.GreedyComp Evalcheck.GreedyWork Cs.FlushModel Cs.FlushProofs.
Import ListNotations.
Local Close Scope N_scope.
Local Open Scope nat_scope.

Section Shape.
  Context {F : field}.

  (** a column or a constant; a scaled column *)
  Definition tleaf (t : tree F) : Prop := (exists v, t = TC v) \/ (exists i, t = TV i).
  Definition mono (t : tree F) : Prop := tleaf t \/ exists i v, t = TM (TV i) (TC v).
  (** a product of [d] columns; a sum of scaled columns and constants *)
  Inductive sel : nat -> tree F -> Prop :=
  | sel_1 i : sel 1 (TV i)
  | sel_S d a i : sel d a -> sel (S d) (TM a (TV i)).
  Inductive lin : tree F -> Prop :=
  | lin_m t : mono t -> lin t
  | lin_a a b : lin a -> mono b -> lin (TA a b).
  Definition sprod (d : nat) (t : tree F) : Prop := (exists v, t = TC v) \/ sel d t \/ exists a b, t = TM a b /\ sel d a /\ lin b.
  Definition stop (d : nat) (t : tree F) : Prop := sprod d t \/ exists v b, t = TA (TC v) b /\ sprod d b.
  Definition shape (d : nat) (t : tree F) : Prop := lin t \/ (exists k, k <= d /\ sel k t) \/ stop d t.

  (** * Optimisation stays within the shapes *)
  Lemma orel_leaf t t' : tleaf t -> orel t t' -> t' = t.
  Proof. intros [[v ->]|[i ->]] O; inversion O; reflexivity. Qed.
  Lemma orel_mono t t' : mono t -> orel t t' -> mono t'.
  Proof.
    intros [H|[i [v ->]]] O; [rewrite (orel_leaf _ _ H O); now left|].
    inversion O as [| | |a b a' b' u Oa Ob P|]; subst. apply (orel_leaf (TV i)) in Oa; [subst a'|right; eauto].
    apply (orel_leaf (TC v)) in Ob; [subst b'|left; eauto].
    destruct P as [->|[(x & y & H & _)|[[H _]|[[_ ->]|[_ ->]]]]]; try discriminate.
    - right. eauto.
    - left. right. eauto.
    - left. left. eauto.
  Qed.
  Lemma sel_nonconst d t v : sel d t -> t <> TC v.
  Proof. intros H ->. inversion H. Qed.
  Lemma orel_sel d t t' : sel d t -> orel t t' -> t' = t.
  Proof.
    intros S. revert t'. induction S as [i|d a i S IH]; intros t' O.
    - apply (orel_leaf (TV i)); auto. right. eauto.
    - inversion O as [| | |x b a' b' u Oa Ob P|]; subst. apply IH in Oa. subst a'. apply (orel_leaf (TV i)) in Ob; [subst b'|right; eauto].
      destruct P as [->|[(x & y & H & _)|[[H _]|[[H _]|[[H|H] _]]]]]; auto; try (now apply (sel_nonconst d) in H); try discriminate.
  Qed.
  Lemma orel_lin t t' : lin t -> orel t t' -> lin t'.
  Proof.
    intros S. revert t'. induction S as [t M|a b S IH M]; intros t' O.
    - apply lin_m. eapply orel_mono; eauto.
    - inversion O as [| |x y a' b' u Oa Ob P| |]; subst. apply IH in Oa. apply (orel_mono b) in Ob; auto.
      destruct P as [->|[(x & y & _ & _ & ->)|[[_ ->]|[[_ ->]| ->]]]]; auto.
      + now apply lin_a.
      + apply lin_m. left. left. eauto.
      + now apply lin_m.
      + apply lin_m. left. left. eauto.
  Qed.
  Lemma orel_sprod d t t' : sprod d t -> orel t t' -> sprod d t'.
  Proof.
    intros [[v ->]|[S|(a & b & -> & S & LB)]] O.
    - left. rewrite (orel_leaf (TC v) t'); eauto. left. eauto.
    - right. left. now rewrite (orel_sel d t t').
    - inversion O as [| | |x y a' b' u Oa Ob P|]; subst. apply (orel_sel d) in Oa; auto. subst a'. apply (orel_lin b) in Ob; auto.
      destruct P as [->|[(x & y & _ & _ & ->)|[[H _]|[[_ ->]|[_ ->]]]]].
      + right. right. eauto.
      + left. eauto.
      + now apply (sel_nonconst d) in H.
      + right. now left.
      + left. eauto.
  Qed.
  Lemma orel_stop d t t' : stop d t -> orel t t' -> stop d t'.
  Proof.
    intros [S|(v & b & -> & S)] O.
    - left. eapply orel_sprod; eauto.
    - inversion O as [| |x y a' b' u Oa Ob P| |]; subst. apply (orel_leaf (TC v)) in Oa; [subst a'|left; eauto]. apply (orel_sprod d b) in Ob; auto.
      destruct P as [->|[(x & y & _ & _ & ->)|[[_ ->]|[[_ ->]| ->]]]].
      + right. eauto.
      + left. left. eauto.
      + now left.
      + left. left. eauto.
      + left. left. eauto.
  Qed.
  Lemma orel_shape d t t' : shape d t -> orel t t' -> shape d t'.
  Proof.
    intros [S|[(k & Hk & S)|S]] O.
    - left. eapply orel_lin; eauto.
    - right. left. exists k. split; auto. now rewrite (orel_sel k t t').
    - right. right. eapply orel_stop; eauto.
  Qed.

  (** * Renaming *)
  Lemma tmap_leaf f t : tleaf t -> tleaf (tmap f t).
  Proof. intros [[v ->]|[i ->]]; [left|right]; cbn; eauto. Qed.
  Lemma tmap_mono f t : mono t -> mono (tmap f t).
  Proof. intros [H|[i [v ->]]]; [left; now apply tmap_leaf|right; cbn; eauto]. Qed.
  Lemma tmap_sel f d t : sel d t -> sel d (tmap f t).
  Proof. induction 1; cbn; constructor; auto. Qed.
  Lemma tmap_lin f t : lin t -> lin (tmap f t).
  Proof. induction 1; cbn; [apply lin_m; now apply tmap_mono|apply lin_a; auto; now apply tmap_mono]. Qed.
  Lemma tmap_sprod f d t : sprod d t -> sprod d (tmap f t).
  Proof.
    intros [[v ->]|[S|(a & b & -> & S & LB)]]; [left; cbn; eauto|right; left; now apply tmap_sel|right; right].
    cbn. do 2 eexists. split; [reflexivity|]. split; [now apply tmap_sel|now apply tmap_lin].
  Qed.
  Lemma tmap_shape f d t : shape d t -> shape d (tmap f t).
  Proof.
    intros [S|[(k & Hk & S)|[S|(v & b & -> & S)]]].
    - left. now apply tmap_lin.
    - right. left. exists k. split; auto. now apply tmap_sel.
    - right. right. left. now apply tmap_sprod.
    - right. right. right. cbn. do 2 eexists. split; [reflexivity|]. now apply tmap_sprod.
  Qed.

  Lemma tmap_stop f d t : stop d t -> stop d (tmap f t).
  Proof.
    intros [S|(v & b & -> & S)]; [left; now apply tmap_sprod|]. right. cbn. do 2 eexists. split; [reflexivity|]. now apply tmap_sprod.
  Qed.

  (** * Degrees *)
  Lemma mono_deg t : mono t -> tdeg t <= 1.
  Proof. intros [[[v ->]|[i ->]]|[i [v ->]]]; cbn; lia. Qed.
  Lemma sel_deg d t : sel d t -> tdeg t = d.
  Proof. induction 1; cbn; lia. Qed.
  Lemma lin_deg t : lin t -> tdeg t <= 1.
  Proof. induction 1 as [t M|a b _ IH M]; [now apply mono_deg|]. pose proof (mono_deg b M). cbn. lia. Qed.
  Lemma sprod_deg d t : sprod d t -> tdeg t <= d + 1.
  Proof.
    intros [[v ->]|[S|(a & b & -> & S & LB)]]; cbn; [lia|pose proof (sel_deg d t S); lia|].
    pose proof (sel_deg d a S). pose proof (lin_deg b LB). lia.
  Qed.
  Lemma stop_deg d t : stop d t -> tdeg t <= d + 1.
  Proof. intros [S|(v & b & -> & S)]; cbn; [now apply sprod_deg|]. pose proof (sprod_deg d b S). lia. Qed.

  (** * The compiler supports circuits of these shapes *)
  Section Supported.
    Variable c : circuit F.
    Variable d : nat.
    Hypothesis W : wf c.
    Hypothesis N : nodes (shape d) c.

    Lemma leaf_tree o t : unf c o t -> (leaf c o <-> tleaf t).
    Proof.
      intros U. split.
      - intros [[v E]|[i E]]; [left; exists v; apply (unf_fun c o); auto; now apply unf_c|right; exists i; apply (unf_fun c o); auto; now apply unf_v].
      - intros [[v ->]|[i ->]]; inversion U; subst; [left|right]; eauto.
    Qed.
    Lemma reach_leaf o t : leaf c o -> reach c o t -> t = o.
    Proof. intros H R. destruct R as [|o s r t E Hr R]; auto. destruct H as [[v H]|[i H]]; rewrite H in E; injection E as <-; destruct Hr. Qed.
    Lemma node_shape o s : nth_error c o = Some s -> exists t, unf c o t /\ shape d t.
    Proof. intros E. apply N. eapply nth_error_lt; eauto. Qed.

    (** the two operands of a sum, and of a product *)
    Lemma add_shape p a b : nth_error c p = Some (SAdd a b) -> leaf c a \/ exists tb, unf c b tb /\ mono tb.
    Proof.
      intros E. destruct (node_shape p _ E) as [t [U S]]. inversion U as [i v E'|i x E'|i l r ta tb E' U1 U2|i l r ta tb E' U1 U2|i b0 e0 ta E' U1]; subst; rewrite E in E'; try discriminate.
      injection E' as <- <-. destruct S as [S|[(k & Hk & S)|[[[v S]|[S|(a0 & b0 & S & _)]]|(v & b0 & S & _)]]]; try discriminate S.
      - inversion S as [t M|a0 b0 LA M]; subst; [|right; eauto]. destruct M as [[[v M]|[i M]]|[i [v M]]]; discriminate.
      - inversion S.
      - inversion S.
      - injection S as -> _. left. apply (leaf_tree a _ U1). left. eauto.
    Qed.
    Lemma mul_shape p a b : nth_error c p = Some (SMul a b) ->
      leaf c a \/ leaf c b \/ exists k ta, sel k ta /\ unf c a ta.
    Proof.
      intros E. destruct (node_shape p _ E) as [t [U S]]. inversion U as [i v E'|i x E'|i l r ta tb E' U1 U2|i l r ta tb E' U1 U2|i b0 e0 ta E' U1]; subst; rewrite E in E'; try discriminate.
      injection E' as <- <-.
      assert (SL : forall k, sel k (TM ta tb) -> leaf c a \/ leaf c b \/ exists k ta, sel k ta /\ unf c a ta).
      { intros k H. inversion H; subst. right. left. apply (leaf_tree b _ U2). right. eauto. }
      destruct S as [S|[(k & Hk & S)|[[[v S]|[S|(a0 & b0 & S & S1 & S2)]]|(v & b0 & S & _)]]]; try discriminate S; eauto.
      - inversion S as [t M|]; subst. destruct M as [[[v M]|[i M]]|[i [v M]]]; try discriminate. injection M as -> ->.
        left. apply (leaf_tree a _ U1). right. eauto.
      - injection S as <- <-. right. right. eauto.
    Qed.
    Lemma no_pow p b e : nth_error c p <> Some (SPow b e).
    Proof.
      intros E. destruct (node_shape p _ E) as [t [U S]]. inversion U as [i v E'|i x E'|i l r ta tb E' U1 U2|i l r ta tb E' U1 U2|i b0 e0 ta E' U1]; subst; rewrite E in E'; try discriminate.
      assert (NM : forall x y, ~ mono (TP x y)) by (intros x y [[[v H]|[i H]]|[i [v H]]]; discriminate).
      destruct S as [S|[(k & Hk & S)|[[[v S]|[S|(a0 & c0 & S & S1 & S2)]]|(v & c0 & S & _)]]]; try discriminate S.
      - inversion S as [t M|]; subst. now apply NM in M.
      - inversion S.
      - inversion S.
    Qed.
    (** what is reached from a product of columns is a column or a product of columns *)
    Lemma reach_sel o t : reach c o t -> forall k u, sel k u -> unf c o u -> exists k' u', sel k' u' /\ unf c t u'.
    Proof.
      induction 1 as [o|o s r t E Hr R IH]; intros k u S U; [eauto|].
      inversion S as [i|k0 a i Sa]; subst.
      - inversion U as [|j x E'| | |]; subst. rewrite E in E'. injection E' as ->. destruct Hr.
      - inversion U as [|j x E'|j l r0 ta tb E' U1 U2|j l r0 ta tb E' U1 U2|j b0 e0 ta E' U1]; subst; rewrite E in E'; try discriminate.
        injection E' as ->. destruct Hr as [<-|[<-|[]]]; [apply (IH k0 a Sa U1)|apply (IH 1 (TV i) (sel_1 i) U2)].
    Qed.
    (** a computed term to which a product is added is not a product of columns *)
    Lemma accumulator_sel t k u : accumulator c t -> sel k u -> unf c t u -> False.
    Proof.
      intros [(p & r & a & b & E & Er) NL] S U.
      destruct (node_shape p _ E) as [tp [Up Sp]]. inversion Up as [i v E'|i x E'|i l r0 ta tb E' U1 U2|i l r0 ta tb E' U1 U2|i b0 e0 ta E' U1]; subst; rewrite E in E'; try discriminate.
      injection E' as <- <-. assert (ta = u) by (eapply unf_fun; eauto). subst ta.
      destruct Sp as [Sp|[(k0 & Hk & Sp)|[[[v Sp]|[Sp|(a0 & b0 & Sp & _)]]|(v & b0 & Sp & _)]]]; try discriminate Sp.
      - inversion Sp as [t0 M|a0 b0 LA M]; subst.
        + destruct M as [[[v M]|[i M]]|[i [v M]]]; discriminate.
        + inversion LA as [t0 M'|]; subst; [|inversion S]. destruct M' as [M'|[i [v ->]]]; [apply NL, (leaf_tree t u U); auto|]. inversion S.
      - inversion Sp.
      - inversion Sp.
      - injection Sp as -> _. apply NL, (leaf_tree t _ U). left. eauto.
    Qed.

    Theorem shape_supported : supported c.
    Proof.
      split.
      - intros a b t T FR Ra Rb. destruct FR as [AC|(b0 & e0 & E & _)]; [|now apply no_pow in E].
        assert (LA : leaf c a -> False) by (intros H; rewrite (reach_leaf a t H Ra) in AC; now apply (proj2 AC)).
        assert (LB : leaf c b -> False) by (intros H; rewrite (reach_leaf b t H Rb) in AC; now apply (proj2 AC)).
        assert (MU : forall p x y, nth_error c p = Some (SMul x y) -> a = x -> b = y -> False).
        { intros p x y E -> ->. destruct (mul_shape p x y E) as [H|[H|(k & ta & S & U)]]; auto.
          destruct (reach_sel x t Ra k ta S U) as (k' & u & S' & U'). now apply (accumulator_sel t k' u AC). }
        destruct T as [p b E|p b E NP|p r x y b E NL Er Hb].
        + eauto.
        + destruct (add_shape p a b E) as [H|(tb & U & M)]; auto. destruct NP as [H|NP]; auto.
          destruct M as [M|[i [v ->]]]; [apply LB, (leaf_tree b tb U); auto|]. inversion U; subst. eapply NP; eauto.
        + destruct (add_shape p a r E) as [H|(tb & U & M)]; auto. destruct M as [M|[i [v ->]]].
          * apply (leaf_tree r tb U) in M. destruct M as [[v M]|[i M]]; congruence.
          * inversion U as [|j z E'|j l r0 ta tb' E' U1 U2|j l r0 ta tb' E' U1 U2|j b0 e0 ta E' U1]; subst; rewrite Er in E'; try discriminate.
            injection E' as <- <-. apply LB. destruct Hb as [->| ->]; [apply (leaf_tree x _ U1); right|apply (leaf_tree y _ U2); left]; eauto.
      - intros p b e E. now apply no_pow in E.
      - intros t b _ E. now apply no_pow in E.
    Qed.
  End Supported.
End Shape.

Section Flush.
  Variable L : nat.
  Notation F := (TF L).

  (** A circuit of this shape is compiled correctly, to a polynomial of degree at most [d + 1]. *)
  Lemma shape_composable d (circ : circuit F) : cwf F circ -> nodes (shape d) circ -> (exists t, root circ t /\ stop d t) -> composable (d + 1) circ.
  Proof.
    intros [NE W] N (t & R & ST) pos n c k ER EK. destruct (remap_unf circ pos c ER) as [LC UC].
    assert (Wc : wf c).
    { destruct (remap_vars_correct F circ pos W) as [A B]. destruct (Nat.le_gt_cases (n_vars circ) (length pos)) as [H|H].
      - destruct (A H) as (c' & E' & W' & _). rewrite ER in E'. now injection E' as ->.
      - rewrite B in ER by lia. discriminate. }
    assert (NEc : c <> []) by (intros ->; destruct circ; [congruence|discriminate]).
    unfold circuit_comp, poly_with_n_vars in EK. destruct (optimize false true c) as [e|] eqn:EO; [|discriminate].
    destruct (Nat.ltb_spec n (n_vars e)) as [|HN]; [discriminate|].
    assert (H2 : is_char2 F true) by (intros _; apply TF_char2).
    destruct (optimize_unf true c e H2 NEc Wc EO) as (We & NEe & HT & HR).
    assert (Ne : nodes (shape d) e).
    { intros i Hi. destruct (HT i Hi) as (j & u & u' & Hj & Uj & Ui & O). exists u'. split; auto. apply (orel_shape d u); auto.
      destruct (N j) as [u0 [U0 S0]]; [lia|]. rewrite (unf_fun _ _ _ _ Uj (UC _ _ U0)). now apply tmap_shape. }
    destruct (HR (tmap (fun x => nth x pos 0) t)) as (t' & R' & O').
    { unfold root. rewrite LC. apply UC. exact R. }
    assert (ST' : stop d t').
    { apply (orel_stop d (tmap (fun x => nth x pos 0) t)); auto. now apply tmap_stop. }
    destruct (circuit_poly_partial true c e n H2 (conj NEc Wc) EO (shape_supported e d Ne) HN) as (p & EP & _ & HV & _).
    unfold poly_with_n_vars in EP. rewrite EO, (proj2 (Nat.ltb_ge _ _) HN) in EP.
    destruct (convert_circuit_steps e) as [[steps ret]|]; [|discriminate]. injection EP as <-. cbn [rbind cp_expr] in EK.
    destruct (degree e) as [dg|] eqn:ED; [|discriminate]. destruct (leading_term e); [|discriminate]. destruct (vars_usage e); [|discriminate].
    injection EK as <-. cbn [c_deg]. split.
    - rewrite (degree_unf _ _ _ ED R'). now apply stop_deg.
    - intros q v Lq Ev. cbn [SumcheckModel.c_eval]. auto.
  Qed.

  Lemma linear_shape d vo (l : list (nat * F)) : forall acc t, nodes (shape d) acc -> root acc t -> lin t ->
    let c := fold_left (fun linear ic => cadd linear (cmul (cvar (fst ic + vo)) (cconst (snd ic)))) l acc in
    nodes (shape d) c /\ exists t, root c t /\ lin t.
  Proof.
    induction l as [|[i v] l IH]; intros acc t N R LT; cbn [fold_left fst snd]; [eauto|].
    destruct (cvar_nodes (F := F) (shape d) (i + vo)) as [N1 R1]; [left; apply lin_m; left; right; eauto|].
    destruct (cconst_nodes (F := F) (shape d) v) as [N2 R2]; [left; apply lin_m; left; left; eauto|].
    assert (M : mono (TM (TV (i + vo)) (TC v))) by (right; eauto).
    destruct (cmul_nodes (shape d) _ _ _ _ N1 N2 R1 R2) as [N3 R3]; [left; now apply lin_m|].
    assert (LT' : lin (TA t (TM (TV (i + vo)) (TC v)))) by now apply lin_a.
    destruct (cadd_nodes (shape d) _ _ _ _ N N3 R R3) as [N4 R4]; [now left|].
    exact (IH _ _ N4 R4 LT').
  Qed.
  Lemma selector_shape n : 0 < n -> nodes (shape n) (selector_circuit n : circuit F) /\ exists t, root (selector_circuit n : circuit F) t /\ sel n t.
  Proof.
    intros Hn. unfold selector_circuit. destruct n as [|m]; [lia|]. cbn [seq map].
    assert (G : forall k a d (acc : circuit F) t, d + k <= S m -> nodes (shape (S m)) acc -> root acc t -> sel d t ->
      let c := fold_left cmul (map cvar (seq a k)) acc in nodes (shape (S m)) c /\ exists t, root c t /\ sel (d + k) t).
    { induction k as [|k IH]; intros a d acc t Hd N R S; cbn [seq map fold_left].
      - rewrite Nat.add_0_r. eauto.
      - destruct (cvar_nodes (F := F) (shape (Datatypes.S m)) a) as [N1 R1]; [left; apply lin_m; left; right; eauto|].
        assert (S' : sel (Datatypes.S d) (TM t (TV a))) by now constructor.
        destruct (cmul_nodes (shape (Datatypes.S m)) _ _ _ _ N N1 R R1) as [N2 R2]; [right; left; exists (Datatypes.S d); split; auto; lia|].
        replace (d + Datatypes.S k) with (Datatypes.S d + k) by lia. apply (IH (Datatypes.S a) (Datatypes.S d) _ _ ltac:(lia) N2 R2 S'). }
    destruct (cvar_nodes (F := F) (shape (S m)) 0) as [N1 R1]; [left; apply lin_m; left; right; eauto|].
    apply (G m 1 1 (cvar 0) (TV 0) ltac:(lia) N1 R1). constructor.
  Qed.

  (** the circuit of a flush oracle *)
  Definition flush_circuit (n : nat) (off : F) (coeffs : list F) : circuit F :=
    cadd (cconst f1) (cmul (selector_circuit n) (linear_circuit off n coeffs)).
  Lemma flush_shape n off (coeffs : list F) : 0 < n ->
    cwf F (flush_circuit n off coeffs) /\ nodes (shape n) (flush_circuit n off coeffs) /\ exists t, root (flush_circuit n off coeffs) t /\ stop n t.
  Proof.
    intros Hn. unfold flush_circuit. destruct (selector_shape n Hn) as [N1 (ts & R1 & S1)].
    destruct (cconst_nodes (F := F) (shape n) off) as [N2 R2]; [left; apply lin_m; left; left; eauto|].
    destruct (linear_shape n n (combine (seq 0 (length coeffs)) coeffs) (cconst off) (TC off) N2 R2) as [N3 (tl & R3 & S3)].
    { apply lin_m. left. left. eauto. }
    fold (linear_circuit off n coeffs) in N3, R3.
    assert (P : sprod n (TM ts tl)) by (right; right; eauto).
    destruct (cmul_nodes (shape n) _ _ _ _ N1 N3 R1 R3) as [N4 R4]; [right; right; now left|].
    destruct (cconst_nodes (F := F) (shape n) f1) as [N5 R5]; [left; apply lin_m; left; left; eauto|].
    assert (ST : stop n (TA (TC f1) (TM ts tl))) by (right; eauto).
    destruct (cadd_nodes (shape n) _ _ _ _ N5 N4 R5 R4) as [N6 R6]; [right; now right|].
    split; [|eauto].
    destruct (cwf_ops L) as [W1 [_ [W3 W4]]]. apply W3; [apply W1|]. apply W4.
    - destruct (selector_circuit_ok L (repeat f0 n ++ []) (repeat f0 n) [] eq_refl) as [W _]. now rewrite repeat_length in W.
    - destruct (linear_circuit_ok L _ (repeat f0 n) (repeat f0 (length coeffs)) eq_refl coeffs off) as [W _]; [now rewrite repeat_length|].
      now rewrite repeat_length in W.
  Qed.

  Theorem flush_composable n off (coeffs : list F) : 0 < n ->
    composable (n + 1) (cadd (cconst f1) (cmul (selector_circuit n) (linear_circuit off n coeffs)) : circuit F).
  Proof. intros Hn. destruct (flush_shape n off coeffs Hn) as (W & N & R). now apply shape_composable. Qed.
  (** ... and so is the circuit that the oracle holds, which has been optimised *)
  Theorem flush_optimised_composable n off (coeffs : list F) e : 0 < n -> optimize false true (flush_circuit n off coeffs) = Some e -> composable (n + 1) e.
  Proof.
    intros Hn EO. destruct (flush_shape n off coeffs Hn) as ([NE W] & N & (t & R & ST)).
    destruct (optimize_unf true _ e (fun _ => TF_char2 L) NE W EO) as (We & NEe & HT & HR).
    apply shape_composable; [split; auto| |].
    - intros i Hi. destruct (HT i Hi) as (j & u & u' & Hj & Uj & Ui & O). exists u'. split; auto. apply (orel_shape n u); auto.
      destruct (N j) as [u0 [U0 S0]]; [lia|]. now rewrite (unf_fun _ _ _ _ Uj U0).
    - destruct (HR t R) as (t' & R' & O'). exists t'. split; auto. now apply (orel_stop n t).
  Qed.
End Flush.
