(** Compilation of M3 tables: the oracles of the columns (for C78). *)
Require Import Coq.NArith.NArith Coq.Arith.Arith Coq.Lists.List Coq.Bool.Bool Lia.
From Verif Require Import Base.Fld Base.Lists Base.Sums Math.MleSpec Math.ArithModel Math.ArithProofs Math.ArithProps Field.TowerModel Field.TowerProofs Field.TowerProps
  Transparent.TransparentModel Transparent.TransparentProps Transparent.ShiftModel Sumcheck.ZerocheckModel Cs.FlushModel Cs.ChannelModel
  Evalcheck.OracleModel Evalcheck.EvalModel Evalcheck.EvalSpec Evalcheck.EvalProofs Evalcheck.OracleProps Evalcheck.SymbolicModel Evalcheck.SymbolicProps
  M3.CompileModel M3.CompileSpec M3.RemapProofs M3.BuilderProofs.
Import ListNotations.
Local Close Scope N_scope.
Local Open Scope nat_scope.

Lemma Forall2_weaken {A B} (P Q : A -> B -> Prop) l l' : (forall a b, P a b -> Q a b) -> Forall2 P l l' -> Forall2 Q l l'.
Proof. intros H. induction 1; constructor; auto. Qed.

Section Oracles.
  Variable L : nat.
  Notation F := (TF L).
  Notation tbl := (tbl L).
  Notation cinfo := (cinfo L).
  Implicit Types (m : olookup) (ss : sset L).

  (** * The lookup *)
  Lemma cid_eqb_spec (a b : cid) : reflect (a = b) (cid_eqb a b).
  Proof.
    unfold cid_eqb. destruct a as [a1 a2], b as [b1 b2]. cbn [fst snd]. destruct (Nat.eqb_spec a1 b1) as [->|N]; cbn [andb].
    - destruct (Nat.eqb_spec a2 b2) as [->|N]; constructor; congruence.
    - constructor. congruence.
  Qed.
  Lemma lookup_app m m' c : lookup (m ++ m') c = match lookup m c with Ok id => Ok id | _ => lookup m' c end.
  Proof. induction m as [|[c' id] m IH]; [reflexivity|]. cbn [app lookup]. destruct (cid_eqb c' c); [reflexivity|exact IH]. Qed.
  Lemma lookup_grow m m' c id : lookup m c = Ok id -> lookup (m ++ m') c = Ok id.
  Proof. intros E. now rewrite lookup_app, E. Qed.
  Lemma lookup_in m c : In c (map fst m) -> exists id, lookup m c = Ok id.
  Proof. induction m as [|[c' id] m IH]; [intros []|]. cbn [map fst lookup]. intros H. destruct (cid_eqb_spec c' c) as [->|N]; [eauto|]. destruct H as [H|H]; [congruence|auto]. Qed.
  Lemma lookup_none m c : ~ In c (map fst m) -> lookup m c = Panic.
  Proof. induction m as [|[c' id] m IH]; [reflexivity|]. cbn [map fst lookup]. intros H. destruct (cid_eqb_spec c' c) as [->|N]; [exfalso; apply H; now left|]. apply IH. intros X. apply H. now right. Qed.
  Lemma lookup_some m c id : lookup m c = Ok id -> In c (map fst m).
  Proof. induction m as [|[c' id'] m IH]; [discriminate|]. cbn [map fst lookup]. destruct (cid_eqb_spec c' c) as [->|N]; [now left|]. intros H. right. auto. Qed.

  (** * The oracle of a column *)
  Definition ref ss m (id : nat) (k : cid) (j : nat) (o : soracle L) : Prop := lookup m k = Ok j /\ nth_error ss j = Some o /\ j < id.

  Definition variant_for ss m (i : cinfo) (id level : nat) (v : svariant L) : Prop :=
    match ci_def L i with
    | CdCommitted _ l | CdStaticExp _ _ _ l | CdDynamicExp _ _ _ l => level = l /\ v = SymCommitted
    | CdSelected _ k ix b => exists j o, ref ss m id k j o /\ level = so_level o /\ v = SymProjected j (index_values L b ix) (Some 0)
    | CdProjected _ k s size bits => exists j o, ref ss m id k j o /\ level = so_level o /\ v = SymProjected j (index_values L size bits) (Some s)
    | CdZeroPadded _ k pad s nz => exists j o, ref ss m id k j o /\ level = so_level o /\ v = SymZeroPadded j pad nz s
    | CdShifted _ k off b sv => exists j o, ref ss m id k j o /\ level = so_level o /\ v = SymShifted j off b sv
    | CdPacked _ k d => exists j o, ref ss m id k j o /\ level = so_level o + d /\ v = SymPacked j d
    | CdComputed _ cols c => exists k0 coeffs inner, linear_normal_form c = Ok (k0, coeffs) /\ v = SymLinearCombination k0 inner /\
        Forall2 (fun cc jc => snd jc = snd cc /\ exists o, ref ss m id (fst cc) (fst jc) o) (combine cols coeffs) inner
    | CdConstant _ data l => exists j p, id = S j /\ constant_column_poly L data = Ok p /\ level = l /\ v = SymRepeating j /\
        nth_error ss j = Some (mkSym (fst (ci_id L i)) (ci_lv L i) l (SymTransparent p))
    | CdStructured _ max => exists e, incrementing_expr L max = Ok e /\ v = SymStructured e
    | CdFixed _ c => v = SymTransparent (circuit_mvpoly L c)
    end.
  Definition oracle_for ss m (i : cinfo) (id : nat) : Prop :=
    exists level v, nth_error ss id = Some (mkSym (fst (ci_id L i)) (ci_lv L i) level v) /\ variant_for ss m i id level v.

  Lemma sset_grow ss ss' j (o : soracle L) : nth_error ss j = Some o -> nth_error (ss ++ ss') j = Some o.
  Proof. intros H. rewrite nth_error_app1; [exact H|]. apply nth_error_Some. congruence. Qed.
  Lemma ref_grow ss m ss' m' id k j o : ref ss m id k j o -> ref (ss ++ ss') (m ++ m') id k j o.
  Proof. intros (H1 & H2 & H3). split; [now apply lookup_grow|]. split; [now apply sset_grow|exact H3]. Qed.
  Lemma variant_for_grow ss m ss' m' i id level v : variant_for ss m i id level v -> variant_for (ss ++ ss') (m ++ m') i id level v.
  Proof.
    unfold variant_for. destruct (ci_def L i); try (intros (j & o & R & H); exists j, o; split; [now apply ref_grow|exact H]); auto.
    - intros (k0 & coeffs & inner & H1 & H2 & H3). exists k0, coeffs, inner. split; [exact H1|]. split; [exact H2|]. eapply Forall2_weaken; [|exact H3].
      intros cc jc (E & o & R). split; [exact E|]. exists o. now apply ref_grow.
    - intros (j & p & H1 & H2 & H3 & H4 & H5). exists j, p. repeat split; auto. now apply sset_grow.
  Qed.
  Lemma oracle_for_grow ss m ss' m' i id : oracle_for ss m i id -> oracle_for (ss ++ ss') (m ++ m') i id.
  Proof. intros (level & v & H & K). exists level, v. split; [now apply sset_grow|now apply variant_for_grow]. Qed.

  (** * The state while the columns are added *)
  Definition is_constant (i : cinfo) : Prop := match ci_def L i with CdConstant _ _ _ => True | _ => False end.
  Record inv ss m (nz : list nat) (cols : list cinfo) : Prop := mkInv {
    inv_keys : map fst m = map (ci_id L) cols;
    inv_oracle : forall i, In i cols -> exists id, lookup m (ci_id L i) = Ok id /\ oracle_for ss m i id;
    inv_range : forall c id, lookup m c = Ok id -> id < length ss;
    inv_cover : forall id, id < length ss -> exists i, In i cols /\ (lookup m (ci_id L i) = Ok id \/ is_constant i /\ lookup m (ci_id L i) = Ok (S id));
    inv_inj : forall c c' id, lookup m c = Ok id -> lookup m c' = Ok id -> c = c';
    inv_single : forall i j c, In i cols -> is_constant i -> lookup m (ci_id L i) = Ok (S j) -> lookup m c <> Ok j;
    inv_nz : Forall2 (fun i id => lookup m (ci_id L i) = Ok id) (filter (ci_nonzero L) cols) nz }.

  (** the columns through which the oracle of a column is defined *)
  Definition through (d : cdef L) : list cid :=
    match d with
    | CdComputed _ cols _ => cols
    | CdSelected _ c _ _ | CdProjected _ c _ _ _ | CdZeroPadded _ c _ _ _ | CdShifted _ c _ _ _ | CdPacked _ c _ => [c]
    | _ => []
    end.
  Definition def_ok (d : cdef L) : Prop :=
    match d with
    | CdShifted _ _ o b _ => 0 < o < 2 ^ b
    | CdConstant _ data level => level <= L /\ exists n, length data = 2 ^ n
    | CdStructured _ max => max <= 2 ^ L
    | CdComputed _ _ c => cwf F c /\ exists d, degree c = Some d /\ d <= 1
    | _ => True
    end.

  Lemma circuit_level_le (c : circuit F) : circuit_level c <= L.
  Proof.
    unfold circuit_level. induction c as [|s c IH]; cbn [map fold_right]; [lia|]. apply Nat.max_lub; [|exact IH]. destruct s as [| | |v|]; try lia. unfold min_level.
    apply tower_min_level. apply enc_inr.
  Qed.
  Lemma constant_poly_ok (data : list F) n : length data = 2 ^ n -> exists p, constant_column_poly L data = Ok p /\ evaluates_to F p n (fun x => nth x data f0).
  Proof.
    intros H. unfold constant_column_poly. destruct (mlet_correct F 0 0 n data (Nat.le_0_l n) H) as (m & E & EV). rewrite E. cbn [rbind]. eauto.
  Qed.

  Lemma sget_ok ss j o : nth_error ss j = Some o -> sget L ss j = Ok o.
  Proof. intros E. unfold sget. now rewrite E. Qed.

  (** what one column adds: one oracle, or two for a constant column *)
  Lemma column_step ss m nz cols i t : inv ss m nz cols -> fst (ci_id L i) = t -> (forall k, In k (through (ci_def L i)) -> In k (map (ci_id L) cols)) -> def_ok (ci_def L i) ->
    exists ext id, column_oracle L ss m i t = Ok (ss ++ ext, id) /\ S id = length (ss ++ ext) /\ length ext = (match ci_def L i with CdConstant _ _ _ => 2 | _ => 1 end) /\
      forall m', oracle_for (ss ++ ext) (m ++ m') i id.
  Proof.
    intros IV <- TH DO. rewrite <- (inv_keys _ _ _ _ IV) in TH.
    assert (REF : forall k, In k (through (ci_def L i)) -> exists j o, lookup m k = Ok j /\ nth_error ss j = Some o /\ j < length ss).
    { intros k Hk. destruct (lookup_in m k (TH k Hk)) as [j Ej]. pose proof (inv_range _ _ _ _ IV _ _ Ej) as Hj. destruct (nth_error_ex ss j Hj) as [o Eo]. eauto. }
    assert (ONE : forall level v, (forall m', variant_for (ss ++ [mkSym (fst (ci_id L i)) (ci_lv L i) level v]) (m ++ m') i (length ss) level v) ->
      match ci_def L i with CdConstant _ _ _ => False | _ => True end -> 
      exists ext id, Ok (sadd L ss (mkSym (fst (ci_id L i)) (ci_lv L i) level v)) = Ok (ss ++ ext, id) /\ S id = length (ss ++ ext) /\ length ext = (match ci_def L i with CdConstant _ _ _ => 2 | _ => 1 end) /\
        forall m', oracle_for (ss ++ ext) (m ++ m') i id).
    { intros level v H NC. exists [mkSym (fst (ci_id L i)) (ci_lv L i) level v], (length ss). split; [reflexivity|]. split; [rewrite app_length; cbn; lia|]. split; [destruct (ci_def L i); try reflexivity; contradiction|].
      intros m'. exists level, v. split; [|apply H]. rewrite nth_error_app2, Nat.sub_diag by lia. reflexivity. }
    assert (RG : forall k j o x m', lookup m k = Ok j -> nth_error ss j = Some o -> j < length ss -> ref (ss ++ x) (m ++ m') (length ss) k j o).
    { intros k j o x m' H1 H2 H3. split; [now apply lookup_grow|]. split; [now apply sset_grow|exact H3]. }
    unfold column_oracle. unfold variant_for in ONE. destruct (ci_def L i) as [l|ks c|k ix b|k s size bits|k pad s nz'|k off b sv|k d|data l|max|c|bits g l|bits g l] eqn:ED; cbn [through] in *; cbn [def_ok] in DO.
    - apply ONE; auto.
    - destruct DO as (W & d & EDG & Hd). destruct (linear_normal_form_correct F c W) as (_ & _ & LN). destruct (LN d EDG Hd) as (k0 & coeffs & EL). rewrite EL.
      assert (IN : exists inner, rmap (fun cc => try j <- lookup m (fst cc); Ok (j, snd cc)) (combine ks coeffs) = Ok inner /\
        Forall2 (fun cc jc => snd jc = snd cc /\ exists o, lookup m (fst cc) = Ok (fst jc) /\ nth_error ss (fst jc) = Some o /\ fst jc < length ss) (combine ks coeffs) inner).
      { assert (REF' : forall cc, In cc (combine ks coeffs) -> exists j o, lookup m (fst cc) = Ok j /\ nth_error ss j = Some o /\ j < length ss).
        { intros [k cf] Hk. apply in_combine_l in Hk. apply REF, Hk. }
        clear -REF'. induction (combine ks coeffs) as [|cc l IH]; [exists []; split; [reflexivity|constructor]|]. destruct IH as (inner & E & FA); [intros cc' Hc; apply REF'; now right|].
        destruct (REF' cc (or_introl eq_refl)) as (j & o & E1 & E2 & E3). exists ((j, snd cc) :: inner). cbn [rmap]. rewrite E1. cbn [rbind]. rewrite E. cbn [rbind]. split; [reflexivity|].
        constructor; [|exact FA]. cbn [fst snd]. split; [reflexivity|]. eauto. }
      destruct IN as (inner & EI & FI). rewrite EI. cbn [rbind]. unfold sym_linear_combination.
      assert (LV : exists levels, rmap (fun ic => try o <- sget L ss (fst ic); Ok (Nat.max (so_level o) (min_level (snd ic)))) inner = Ok levels).
      { clear -FI. induction FI as [|cc jc l l' (_ & o & E1 & E2 & E3) FI IH]; [exists []; reflexivity|]. destruct IH as [levels E]. cbn [rmap]. rewrite (sget_ok _ _ _ E2). cbn [rbind]. rewrite E. cbn [rbind]. eauto. }
      destruct LV as [levels ELV]. rewrite ELV. cbn [rbind]. apply ONE; [|exact I]. intros m'. exists k0, coeffs, inner. split; [exact EL|]. split; [reflexivity|].
      eapply Forall2_weaken; [|exact FI]. intros cc jc (E & o & E1 & E2 & E3). split; [exact E|]. exists o. now apply RG.
    - destruct (REF k (or_introl eq_refl)) as (j & o & E1 & E2 & E3). rewrite E1. cbn [rbind]. unfold sym_projected. rewrite (sget_ok _ _ _ E2). cbn [rbind]. apply ONE; [|exact I]. intros m'. exists j, o. split; [now apply RG|split; reflexivity].
    - destruct (REF k (or_introl eq_refl)) as (j & o & E1 & E2 & E3). rewrite E1. cbn [rbind]. unfold sym_projected. rewrite (sget_ok _ _ _ E2). cbn [rbind]. apply ONE; [|exact I]. intros m'. exists j, o. split; [now apply RG|split; reflexivity].
    - destruct (REF k (or_introl eq_refl)) as (j & o & E1 & E2 & E3). rewrite E1. cbn [rbind]. unfold sym_zero_padded. rewrite (sget_ok _ _ _ E2). cbn [rbind]. apply ONE; [|exact I]. intros m'. exists j, o. split; [now apply RG|split; reflexivity].
    - destruct (REF k (or_introl eq_refl)) as (j & o & E1 & E2 & E3). rewrite E1. cbn [rbind]. unfold sym_shifted. rewrite (proj2 (Nat.eqb_neq off 0)), (proj2 (Nat.leb_gt _ _)) by lia. cbn [orb]. rewrite (sget_ok _ _ _ E2). cbn [rbind].
      apply ONE; [|exact I]. intros m'. exists j, o. split; [now apply RG|split; reflexivity].
    - destruct (REF k (or_introl eq_refl)) as (j & o & E1 & E2 & E3). rewrite E1. cbn [rbind]. unfold sym_packed. rewrite (sget_ok _ _ _ E2). cbn [rbind]. apply ONE; [|exact I]. intros m'. exists j, o. split; [now apply RG|split; reflexivity].
    - destruct DO as (HL & n & HD). destruct (constant_poly_ok data n HD) as (p & EP & _). rewrite EP. cbn [rbind]. unfold sym_transparent. rewrite (proj2 (Nat.ltb_ge _ _) HL). cbn [rbind].
      unfold sadd at 1 2. cbn [fst snd]. unfold sym_repeating.
      set (o1 := mkSym (fst (ci_id L i)) (ci_lv L i) l (SymTransparent p)).
      assert (E1 : nth_error (ss ++ [o1]) (length ss) = Some o1) by (rewrite nth_error_app2, Nat.sub_diag by lia; reflexivity).
      rewrite (sget_ok _ _ _ E1). cbn [rbind]. unfold sadd. rewrite <- app_assoc. cbn [app]. set (o2 := mkSym _ _ _ (SymRepeating _)).
      exists [o1; o2], (length (ss ++ [o1])). split; [reflexivity|]. split; [rewrite !app_length; cbn; lia|]. split; [reflexivity|].
      intros m'. exists l, (SymRepeating (length ss)). split.
      + replace (ss ++ [o1; o2]) with ((ss ++ [o1]) ++ [o2]) by now rewrite <- app_assoc. rewrite nth_error_app2, Nat.sub_diag by lia. reflexivity.
      + unfold variant_for. rewrite ED. exists (length ss), p. split; [rewrite app_length; cbn; lia|]. split; [exact EP|]. split; [reflexivity|]. split; [reflexivity|].
        rewrite nth_error_app2, Nat.sub_diag by lia. reflexivity.
    - unfold incrementing_expr. rewrite (proj2 (Nat.ltb_ge _ _) DO). cbn [rbind]. unfold sym_structured. rewrite (proj2 (Nat.ltb_ge _ _) (circuit_level_le _)). apply ONE; [|exact I].
      intros m'. eexists. split; [unfold incrementing_expr; rewrite (proj2 (Nat.ltb_ge _ _) DO); reflexivity|reflexivity].
    - unfold sym_transparent. rewrite (proj2 (Nat.ltb_ge _ _) (circuit_level_le _)). apply ONE; [|exact I]. reflexivity.
    - apply ONE; auto.
    - apply ONE; auto.
  Qed.

  Lemma add_column_ok ss m nz cols i t : inv ss m nz cols -> fst (ci_id L i) = t -> (forall k, In k (through (ci_def L i)) -> In k (map (ci_id L) cols)) -> def_ok (ci_def L i) ->
    ~ In (ci_id L i) (map (ci_id L) cols) ->
    exists ext id nz', add_column L t (ss, m, nz) i = Ok (ss ++ ext, m ++ [(ci_id L i, id)], nz') /\ inv (ss ++ ext) (m ++ [(ci_id L i, id)]) nz' (cols ++ [i]).
  Proof.
    intros IV Ht TH DO NI. destruct (column_step ss m nz cols i t IV Ht TH DO) as (ext & id & E & LEN & LX & OF). pose proof IV as [K O R C J SG Z].
    unfold add_column. rewrite E. cbn [rbind fst snd]. unfold register. rewrite <- K in NI. rewrite (lookup_none m _ NI). cbn [rbind].
    set (m' := m ++ [(ci_id L i, id)]). rewrite app_length in LEN.
    assert (LK : forall c, lookup m' c = match lookup m c with Ok x => Ok x | _ => if cid_eqb (ci_id L i) c then Ok id else Panic end) by (intros c; unfold m'; rewrite lookup_app; reflexivity).
    assert (LI : lookup m' (ci_id L i) = Ok id).
    { rewrite LK, (lookup_none m _ NI). destruct (cid_eqb_spec (ci_id L i) (ci_id L i)); [reflexivity|contradiction]. }
    assert (LO : forall c x, lookup m' c = Ok x -> lookup m c = Ok x \/ c = ci_id L i /\ x = id).
    { intros c x. rewrite LK. destruct (lookup m c) as [y| |]; auto; destruct (cid_eqb_spec (ci_id L i) c) as [<-|]; try discriminate; intros [= <-]; auto. }
    assert (ID : id = length ss \/ is_constant i /\ id = length ss + 1).
    { unfold is_constant. destruct (ci_def L i); (left; lia) || (right; split; [exact I|lia]). }
    exists ext, id, (if ci_nonzero L i then nz ++ [id] else nz). fold m'. split; [reflexivity|]. constructor.
    - unfold m'. rewrite !map_app, K. reflexivity.
    - intros i' Hi'. apply in_app_iff in Hi' as [Hi'|[<-|[]]].
      + destruct (O i' Hi') as (x & E1 & E2). exists x. split; [now apply lookup_grow|now apply oracle_for_grow].
      + exists id. split; [exact LI|apply OF].
    - intros c x Hx. rewrite app_length. apply LO in Hx as [Hx|[-> ->]]; [specialize (R c x Hx); lia|lia].
    - intros x Hx. rewrite app_length in Hx. destruct (Nat.lt_ge_cases x (length ss)) as [Hl|Hl].
      + destruct (C x Hl) as (i' & Hi' & H). exists i'. split; [apply in_or_app; now left|]. destruct H as [H|[H1 H]]; [left|right; split; [exact H1|]]; now apply lookup_grow.
      + exists i. split; [apply in_or_app; right; now left|]. rewrite LI. destruct ID as [->|[H1 ->]]; [left; f_equal; lia|].
        destruct (Nat.eq_dec x (length ss)) as [->|N]; [right; split; [exact H1|f_equal; lia]|left; f_equal; lia].
    - intros c c' x Hc Hc'. apply LO in Hc as [Hc|[Ec Ex]]; apply LO in Hc' as [Hc'|[Ec' Ex']].
      + now apply (J c c' x).
      + specialize (R _ _ Hc). lia.
      + specialize (R _ _ Hc'). lia.
      + congruence.
    - intros i' j c Hi' Hk Hj Hc. apply in_app_iff in Hi' as [Hi'|[<-|[]]].
      + destruct (O i' Hi') as (x & E1 & _). assert (x = S j) by (unfold m' in Hj; rewrite lookup_app, E1 in Hj; congruence). subst x.
        apply LO in Hc as [Hc|[_ Ex]]; [now apply (SG i' j c)|]. specialize (R _ _ E1). lia.
      + rewrite LI in Hj. injection Hj as Hj. apply LO in Hc as [Hc|[_ Hc]]; [|lia]. specialize (R _ _ Hc). destruct ID as [ID|[_ ID]]; [|lia].
        assert (EX : length ext = 2) by (unfold is_constant in Hk; destruct (ci_def L i); contradiction || exact LX). lia.
    - rewrite filter_app. cbn [filter]. assert (Z' : Forall2 (fun i0 id0 => lookup m' (ci_id L i0) = Ok id0) (filter (ci_nonzero L) cols) nz) by (eapply Forall2_weaken; [|exact Z]; intros a b H; now apply lookup_grow).
      destruct (ci_nonzero L i); [|now rewrite app_nil_r]. apply Forall2_app; [exact Z'|]. constructor; [exact LI|constructor].
  Qed.

  Lemma add_columns_ok t l : forall ss m nz cols, inv ss m nz cols -> NoDup (map (ci_id L) (cols ++ l)) ->
    (forall n i, nth_error l n = Some i -> fst (ci_id L i) = t /\ def_ok (ci_def L i) /\ forall k, In k (through (ci_def L i)) -> In k (map (ci_id L) (cols ++ firstn n l))) ->
    exists ss' m' nz', add_columns L t (ss, m, nz) l = Ok (ss', m', nz') /\ inv ss' m' nz' (cols ++ l) /\ (exists x, ss' = ss ++ x) /\ exists x, m' = m ++ x.
  Proof.
    induction l as [|i l IH]; intros ss m nz cols IV ND H.
    - exists ss, m, nz. cbn [add_columns]. rewrite app_nil_r. split; [reflexivity|]. split; [exact IV|]. split; exists []; now rewrite app_nil_r.
    - destruct (H 0 i eq_refl) as (H1 & H2 & H3). cbn [firstn] in H3. rewrite app_nil_r in H3.
      assert (NI : ~ In (ci_id L i) (map (ci_id L) cols)).
      { rewrite map_app in ND. cbn [map] in ND. apply NoDup_remove_2 in ND. intros X. apply ND. apply in_or_app. now left. }
      destruct (add_column_ok ss m nz cols i t IV H1 H3 H2 NI) as (ext & id & nz1 & E & IV1). cbn [add_columns]. rewrite E. cbn [rbind].
      destruct (IH (ss ++ ext) (m ++ [(ci_id L i, id)]) nz1 (cols ++ [i]) IV1) as (ss' & m' & nz' & E' & IV' & (x & ->) & (y & ->)).
      + rewrite <- app_assoc. exact ND.
      + intros n i' Hn. destruct (H (S n) i' Hn) as (G1 & G2 & G3). split; [exact G1|]. split; [exact G2|]. rewrite <- app_assoc. exact G3.
      + eexists _, _, nz'. split; [exact E'|]. replace ((cols ++ [i]) ++ l) with (cols ++ i :: l) in IV' by now rewrite <- app_assoc. split; [exact IV'|]. split; [exists (ext ++ x)|exists ([(ci_id L i, id)] ++ y)]; now rewrite <- app_assoc.
  Qed.
End Oracles.
