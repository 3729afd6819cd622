(** C74: the zerocheck of the table constraints. *)
Require Import Coq.Arith.Arith Coq.NArith.NArith Coq.Lists.List Coq.Bool.Bool Coq.Sorting.Permutation Coq.Sorting.Sorted Lia.
From Verif Require Import Base.Fld Base.Lists Base.Sums Math.MleSpec Math.ArithModel Math.ArithProofs Math.ArithProps Field.TowerProofs
  Transparent.TransparentModel Protocol.Proto Protocol.Soundness Utils.SortModel Utils.SortProps Ntt.NttSpec Ntt.SubspaceModel Ntt.SubspaceTheory Ntt.SubspaceProps
  Sumcheck.SumcheckModel Sumcheck.SumcheckSpec Sumcheck.ZerocheckModel Sumcheck.ZerocheckProofs Sumcheck.ZerocheckProps
  Evalcheck.OracleModel Evalcheck.EvalModel Evalcheck.EvalSpec Evalcheck.OracleProps Evalcheck.EvalProofs
  Evalcheck.GreedyModel Evalcheck.GreedyComp Evalcheck.GreedyWork Evalcheck.GreedySets Evalcheck.GreedyStages Cs.FlushModel Cs.VerifyModel Cs.VerifyComp.
Import ListNotations.
Local Close Scope N_scope.
Local Open Scope nat_scope.

Local Opaque usize_bits.

Lemma log2_ceil_bound a m : a <= 2 ^ m -> log2_ceil a <= m.
Proof.
  intros H. unfold log2_ceil, min_bits. destruct (a - 1) as [|b] eqn:E; [lia|]. assert (Nat.log2 (S b) < m); [|lia]. apply Nat.log2_lt_pow2; lia.
Qed.
Lemma fold_min_le (l : list nat) : forall a, fold_left Nat.min l a <= a /\ forall x, In x l -> fold_left Nat.min l a <= x.
Proof.
  induction l as [|b l IH]; intros a; cbn [fold_left]; [split; [lia|intros ? []]|]. destruct (IH (Nat.min a b)) as [H1 H2]. split; [lia|]. intros x [<-|Hx]; [lia|auto].
Qed.

Lemma max_ub {A} (f : A -> nat) l b : (forall x, In x l -> f x <= b) -> fold_right Nat.max 0 (map f l) <= b.
Proof. induction l as [|a l IH]; intros H; cbn [map fold_right]; [lia|]. pose proof (H a (or_introl eq_refl)). specialize (IH (fun x Hx => H x (or_intror Hx))). lia. Qed.
Lemma max_ge {A} (f : A -> nat) l x : In x l -> f x <= fold_right Nat.max 0 (map f l).
Proof. induction l as [|a l IH]; intros []; cbn [map fold_right]; [subst; lia|]. specialize (IH H). lia. Qed.

Section Retain.
  Context {A : Type}.
  Lemma retain_spec (f : A -> res bool) (g : A -> bool) l r : (forall x b, In x l -> f x = Ok b -> b = g x) -> retain f l = Ok r -> r = filter g l.
  Proof.
    unfold retain. intros H. destruct (rmap f l) as [keep| |] eqn:E; cbn [rbind]; try discriminate. intros [= <-]. apply rmap_inv in E.
    revert H. induction E as [|x b l keep E1 E2 IH]; intros H; [reflexivity|]. cbn [combine filter fst]. rewrite (H x b) by (auto; now left).
    destruct (g x); cbn [map snd]; [f_equal|]; apply IH; intros; apply H; auto; now right.
  Qed.
End Retain.

Section Zero.
  Variable L D : nat.
  Notation F := (TF L).
  Notation claim := (EvalModel.claim L).
  Notation claim_true := EvalSpec.claim_true.
  Variable sizes : list nat.

  Definition table_size (t : table_constraints L) : nat := nth (tc_table L t) sizes 0.
  Definition table_vars (t : table_constraints L) : nat := tc_log_values_per_row L t + log2_ceil (table_size t).
  Definition live (t : table_constraints L) : bool := negb (table_size t =? 0).
  Definition sized (t : table_constraints L) : sized_set L := mkSized L (table_vars t) (tc_ids L t) (tc_constraints L t).

  Lemma size_constraints_spec tcs tables : size_constraints L sizes tcs = Ok tables -> Permutation tables (map sized (filter live tcs)).
  Proof.
    unfold size_constraints. destruct (rmap _ tcs) as [l| |] eqn:E; cbn [rbind]; try discriminate. intros [= <-]. etransitivity; [apply sort_perm|].
    apply rmap_inv in E. induction E as [|t x tcs l E1 E2 IH]; [constructor|]. cbn [concat filter].
    unfold live at 1, table_size. destruct (nth_error sizes (tc_table L t)) as [n|] eqn:En; cbn [of_opt rbind] in E1; [|discriminate].
    rewrite (nth_error_nth _ _ _ En). injection E1 as <-. destruct (n =? 0) eqn:Z; cbn [negb app map]; [exact IH|].
    replace (mkSized L _ _ _) with (sized t); [now constructor|]. unfold sized, table_vars, table_size. now rewrite (nth_error_nth _ _ _ En).
  Qed.

  Variable os : oset L.
  (** A table's constraints: there is one, the circuits refer to columns of the table and are compiled correctly, and the
      columns have the size of the table. *)
  Definition sized_ok (s : sized_set L) : Prop :=
    sz_constraints L s <> [] /\
    (forall con, In con (sz_constraints L s) -> cwf F (fst con) /\ n_vars (fst con) <= length (sz_ids L s) /\ compiled L D (fst con)) /\
    forall id, In id (sz_ids L s) -> exists o, present L os id o /\ o_nvars o = sz_n L s.

  Definition broken (V : values L) (s : sized_set L) : Prop :=
    exists c x v, In (c, None) (sz_constraints L s) /\ x < 2 ^ sz_n L s /\ evaluate c (map (fun id => V id x) (sz_ids L s)) = Some v /\ v <> 0%F.

  Lemma zclaim_spec V s z : sized_ok s -> zerocheck_claim L s = Ok z ->
    snd z = (sz_n L s, sz_ids L s) /\ zc_n (fst z) = sz_n L s /\ zc_m (fst z) = length (sz_ids L s) /\
    length (zc_comps (fst z)) = length (sz_constraints L s) /\ z_degree (fst z) <= D /\
    zinst_ok (fst z, map V (sz_ids L s)) /\ (broken V s -> ~ zero_true (fst z, map V (sz_ids L s))).
  Proof.
    intros (NE & HC & _) E. unfold zerocheck_claim in E. match type of E with context [rmap ?f ?l] => destruct (rmap f l) as [zeros| |] eqn:ER end; cbn [rbind] in E; try discriminate.
    unfold zclaim_new in E. destruct (existsb _ zeros); cbn [rbind] in E; try discriminate. injection E as <-. cbn [fst snd zc_n zc_m zc_comps].
    apply rmap_inv in ER. set (n := length (sz_ids L s)) in *.
    assert (LZ : length zeros = length (sz_constraints L s)) by (symmetry; clear -ER; induction ER; cbn; congruence).
    assert (HK : forall k, In k zeros -> exists c, In (c, None) (sz_constraints L s) /\ circuit_comp n c = Ok k).
    { intros k Hk. clear -ER Hk. induction ER as [|[c p] k' cons ks E1 E2 IH]; [destruct Hk|]. cbn [fst snd] in E1. destruct Hk as [<-|Hk].
      - destruct p; [discriminate|]. exists c. split; [now left|exact E1].
      - destruct (IH Hk) as (c' & H1 & H2). exists c'. split; [now right|exact H2]. }
    assert (HK' : forall c, In (c, None) (sz_constraints L s) -> exists k, In k zeros /\ circuit_comp n c = Ok k).
    { intros c Hc. clear -ER Hc. induction ER as [|con k' cons ks E1 E2 IH]; [destruct Hc|]. destruct Hc as [->|Hc].
      - exists k'. split; [now left|exact E1].
      - destruct (IH Hc) as (k & H1 & H2). exists k. split; [now right|exact H2]. }
    assert (GOOD : forall k, In k zeros -> c_deg k <= D /\ comp_ok k /\ c_nv k = n /\ curve_ok k).
    { intros k Hk. destruct (HK k Hk) as (c & Hc & Ek). destruct (HC _ Hc) as (W & NV & CO). cbn [fst] in *. destruct (CO n k Ek) as [DG FA].
      destruct (circuit_comp_ok L n c k W NV Ek FA) as [OK NK]. repeat (split; [assumption|]). now apply (circuit_comp_curve L n c k). }
    repeat (split; [reflexivity|]). split; [exact LZ|]. split.
    { unfold z_degree. cbn [zc_comps]. apply max_ub. intros k Hk. now apply GOOD. }
    split.
    - split; [cbn [fst snd zc_m]; apply map_length|]. cbn [fst zc_comps zc_m]. split.
      + intros ->. apply NE. now destruct (sz_constraints L s).
      + intros k Hk. now apply GOOD.
    - intros (c & x & v & Hc & Hx & EV & NZ) T. destruct (HK' c Hc) as (k & Hk & Ek). destruct (HC _ Hc) as (W & NV & CO). cbn [fst] in *.
      destruct (CO n k Ek) as [_ FA]. specialize (T k x Hk Hx). cbn [snd] in T. rewrite map_map in T. rewrite (FA _ v) in T; [congruence|now rewrite map_length|exact EV].
  Qed.

  (** * The claims *)
  Variable tables : list (sized_set L).
  Hypothesis tables_ok : forall s, In s tables -> sized_ok s.
  Variable zm : list (zclaim F * claim_meta).
  Hypothesis made : rmap (zerocheck_claim L) tables = Ok zm.

  Lemma metas_spec : map snd zm = map (fun s => (sz_n L s, sz_ids L s)) tables.
  Proof.
    pose proof (rmap_inv _ _ _ made) as M. revert tables_ok. clear -M. induction M as [|s z ts zs E1 E2 IH]; intros OK; [reflexivity|]. cbn [map]. f_equal.
    - now apply (zclaim_spec (fun _ _ => f0) s z (OK s (or_introl eq_refl))).
    - apply IH. intros; apply OK; now right.
  Qed.

  Lemma zero_claims_shape out claims : make_zerocheck_eval_claims (map snd zm) out = Ok claims ->
    (forall c, In c (map (eval_claim L) claims) -> claim_sized os c) /\ map (fun c => fst (fst c)) claims = flat_map (sz_ids L) tables.
  Proof.
    destruct out as [[sk un] ev]. intros E. pose proof (zerocheck_eval_claims F (map snd zm) sk un ev) as Z. rewrite E in Z. cbn zeta in Z.
    destruct Z as (_ & LE & _ & EC & SZ). rewrite metas_spec in *. set (ids := flat_map _ _) in *. split.
    - intros c Hc. apply in_map_iff in Hc as (c' & <- & Hc). rewrite Forall_forall in SZ. destruct (SZ c' Hc) as (n & Hn & LN).
      unfold ids in Hn. apply in_flat_map in Hn as (m & Hm & Hn). apply in_map_iff in Hm as (s & <- & Hs). cbn [fst snd] in Hn.
      apply in_map_iff in Hn as (id & EI & Hid). injection EI as -> <-. destruct (tables_ok s Hs) as (_ & _ & P). destruct (P _ Hid) as (o & Po & No).
      exists o. split; [exact Po|]. cbn [eval_claim c_point]. congruence.
    - rewrite EC, map_map. cbn [fst]. transitivity (map fst ids).
      + clear -LE. revert ev LE. induction ids as [|a ids IH]; intros [|e ev] LE; try discriminate; [reflexivity|]. cbn [combine map fst]. f_equal. apply IH. now injection LE.
      + unfold ids. rewrite !flat_map_concat_map, concat_map, !map_map. f_equal. apply map_ext. intros s. cbn [fst snd]. rewrite map_map. cbn [fst]. apply map_id.
  Qed.

  Definition insts (V : values L) : list (zinst F) := map (fun zs => (fst (fst zs), map V (sz_ids L (snd zs)))) (combine zm tables).

  Lemma zero_claims_false V out claims : ~ zero_truthful (insts V) out -> make_zerocheck_eval_claims (map snd zm) out = Ok claims ->
    some_false L V (map (eval_claim L) claims).
  Proof.
    intros NT E. destruct (claims_dec L V (map (eval_claim L) claims)) as [H|T]; [exact H|]. exfalso. apply NT. clear NT.
    destruct out as [[sk un] ev]. pose proof (zerocheck_eval_claims F (map snd zm) sk un ev) as Z. rewrite E in Z. cbn zeta in Z.
    destruct Z as (_ & LE & _ & EC & _). rewrite metas_spec in *. set (ids := flat_map _ _) in *. unfold zero_truthful.
    assert (EV : ev = map (fun x => mle (V (fst x)) (zpoint sk un (snd x))) ids).
    { rewrite EC in T. clear -LE T. revert ev LE T. induction ids as [|a ids IH]; intros [|e ev] LE T; try discriminate; [reflexivity|]. cbn [map]. f_equal.
      - symmetry. apply (T (eval_claim L (fst a, zpoint sk un (snd a), e))). now left.
      - apply IH; [now injection LE|]. intros c Hc. apply T. now right. }
    rewrite EV. unfold ids, insts. rewrite flat_map_concat_map, concat_map, !map_map. f_equal. cbn [fst snd].
    pose proof (rmap_inv _ _ _ made) as M. revert tables_ok. clear -M. induction M as [|s z ts zs E1 E2 IH]; intros OK; [reflexivity|]. cbn [map combine]. f_equal.
    - destruct (zclaim_spec V s z (OK s (or_introl eq_refl)) E1) as (_ & A & _). cbn [fst snd]. rewrite A, !map_map. reflexivity.
    - apply IH. intros; apply OK; now right.
  Qed.

  Lemma insts_fst V : map fst (insts V) = map fst zm.
  Proof.
    unfold insts. rewrite map_map. cbn [fst]. pose proof (rmap_inv _ _ _ made) as M. clear -M. induction M as [|s z ts zs E1 E2 IH]; [reflexivity|]. cbn [map combine fst]. f_equal. exact IH.
  Qed.
  Lemma insts_in V zi : In zi (insts V) -> exists s z, In s tables /\ zerocheck_claim L s = Ok z /\ zi = (fst z, map V (sz_ids L s)).
  Proof.
    unfold insts. rewrite in_map_iff. intros ([z s] & <- & H). cbn [fst snd]. exists s, z. pose proof (rmap_inv _ _ _ made) as M. clear -M H.
    induction M as [|s' z' ts zs E1 E2 IH]; [destruct H|]. destruct H as [[= <- <-]|H]; [split; [now left|auto]|]. destruct (IH H) as (K1 & K2 & _). split; [now right|auto].
  Qed.
  Lemma in_insts V s : In s tables -> exists z, zerocheck_claim L s = Ok z /\ In (fst z, map V (sz_ids L s)) (insts V).
  Proof.
    intros Hs. pose proof (rmap_inv _ _ _ made) as M. unfold insts. clear -M Hs. induction M as [|s' z ts zs E1 E2 IH]; [destruct Hs|]. cbn [combine map fst snd].
    destruct Hs as [->|Hs]; [exists z; split; [exact E1|now left]|]. destruct (IH Hs) as (z' & K1 & K2). exists z'. split; [exact K1|now right].
  Qed.

  (** the number of the constraints, of the columns and the size of the largest table *)
  Definition tables_constraints : nat := list_sum (map (fun s => length (sz_constraints L s)) tables).
  Definition tables_columns : nat := list_sum (map (fun s => length (sz_ids L s)) tables).
  Definition tables_vars : nat := fold_right Nat.max 0 (map (sz_n L) tables).

  Variable bc : nat -> option F.
  Variable domain_bits : nat.
  Hypothesis basis : forall e b, sub_with_dim bc e = Ok b -> lin_indep b.
  Hypothesis basis_size : forall e, e <= domain_bits -> exists b, sub_with_dim bc e = Ok b.
  Hypothesis small : Nat.max D (2 ^ domain_bits) <= 2 ^ usize_bits.

  Definition zero_error : nat :=
    tables_vars + tables_constraints + Nat.max D (2 ^ domain_bits) + tables_vars * (1 + D) + tables_columns + 2 * domain_bits.

  Lemma skip_le : skip_rounds L domain_bits (map fst zm) <= domain_bits.
  Proof.
    unfold skip_rounds. destruct (map fst zm) as [|c cs]; cbn [map]; [cbn; lia|]. etransitivity; [apply Nat.le_min_l|]. destruct (fold_min_le (map (fun c => domain_bits - log2_ceil (z_degree c)) cs) (domain_bits - log2_ceil (z_degree c))). lia.
  Qed.
  Lemma skip_domain c : In c (map fst zm) -> z_degree c <= D -> z_degree c * 2 ^ skip_rounds L domain_bits (map fst zm) <= Nat.max D (2 ^ domain_bits).
  Proof.
    intros Hc HD. assert (K : skip_rounds L domain_bits (map fst zm) <= domain_bits - log2_ceil (z_degree c)).
    { unfold skip_rounds. destruct (map fst zm) as [|c0 cs]; [destruct Hc|]. cbn [map]. etransitivity; [apply Nat.le_min_l|].
      destruct (fold_min_le (map (fun c => domain_bits - log2_ceil (z_degree c)) cs) (domain_bits - log2_ceil (z_degree c0))) as [K1 K2].
      destruct Hc as [<-|Hc]; [exact K1|]. apply K2. apply in_map_iff. exists c. auto. }
    set (k := skip_rounds _ _ _) in *. destruct (Nat.le_gt_cases (log2_ceil (z_degree c)) domain_bits) as [LE|GT].
    - etransitivity; [|apply Nat.le_max_r]. transitivity (2 ^ log2_ceil (z_degree c) * 2 ^ k).
      + apply Nat.mul_le_mono_r. apply log2_ceil_le.
      + rewrite <- Nat.pow_add_r. apply Nat.pow_le_mono_r; lia.
    - replace k with 0 by lia. cbn [Nat.pow]. lia.
  Qed.

  Theorem tables_sound V s : In s tables -> broken V s ->
    sound (fun out => ~ zero_truthful (insts V) out) zero_error (zerocheck_verify bc (map fst zm) (skip_rounds L domain_bits (map fst zm))).
  Proof.
    intros Hs BR. set (k := skip_rounds _ _ _). assert (KD : k <= domain_bits) by apply skip_le.
    destruct (basis_size k KD) as [bk EB]. pose proof (with_dim_length F _ _ _ EB) as LB.
    assert (KU : k <= usize_bits).
    { etransitivity; [exact KD|]. apply (Nat.pow_le_mono_r_iff 2); lia. }
    destruct (subspace_iter_nodup F (TF_char2 L) bk (basis _ _ EB)) as [ND LL]; [lia|]. rewrite LB in LL.
    assert (OK : forall zi, In zi (insts V) -> exists s, In s tables /\ zc_n (fst zi) = sz_n L s /\ zinst_ok zi /\ z_degree (fst zi) <= D).
    { intros zi Hz. destruct (insts_in V zi Hz) as (s' & z & Hs' & Ez & ->). destruct (zclaim_spec V s' z (tables_ok s' Hs') Ez) as (_ & A & _ & _ & B & C & _). exists s'. cbn [fst]. auto. }
    assert (MD : max_domain_size (map fst (insts V)) k <= Nat.max D (2 ^ domain_bits)).
    { unfold max_domain_size. apply max_ub. intros c Hc. apply in_map_iff in Hc as (zi & <- & Hz). destruct (OK zi Hz) as (_ & _ & _ & _ & HD). apply skip_domain; auto.
      rewrite <- (insts_fst V). now apply in_map. }
    rewrite <- (insts_fst V). eapply (sound_mono F); [apply (zerocheck_sound F (TF_char2 L) k (sub_iter bk) LL ND bc bk (insts V) basis EB eq_refl)| |auto].
    - apply log2_ceil_bound. lia.
    - apply Forall_forall. intros zi Hz. now destruct (OK zi Hz) as (_ & _ & _ & H & _).
    - destruct (in_insts V s Hs) as (z & Ez & Hz). exists (fst z, map V (sz_ids L s)). split; [exact Hz|].
      now apply (zclaim_spec V s z (tables_ok s Hs) Ez).
    - assert (NZ : n_z F (insts V) <= tables_vars).
      { unfold n_z. destruct (insts V) as [|zi zis] eqn:EI; [cbn; lia|]. rewrite <- EI in *.
        assert (IN : In (last (map zc_n (map fst (insts V))) 0) (map zc_n (map fst (insts V)))).
        { rewrite EI. clear. generalize (map fst zis). intros l. cbn [map]. revert zi. assert (G : forall (l : list nat) a, In (last (a :: l) 0) (a :: l)).
          { induction l0 as [|b l0 IH]; intros a; [now left|]. right. apply (IH b). } intros zi. apply G. }
        rewrite map_map in IN. apply in_map_iff in IN as (zi' & E1 & Hz). rewrite map_map. rewrite <- E1. destruct (OK zi' Hz) as (s' & Hs' & -> & _).
        unfold tables_vars. now apply max_ge. }
      assert (ZC : z_composites F (insts V) = tables_constraints /\ z_multilinears F (insts V) = tables_columns).
      { unfold z_composites, z_multilinears, tables_constraints, tables_columns, insts. rewrite !map_map. cbn [fst].
        pose proof (rmap_inv _ _ _ made) as M. revert tables_ok. clear -M. induction M as [|s' z ts zs E1 E2 IH]; intros OK; [now split|]. cbn [combine map fst].
        destruct (zclaim_spec (fun _ _ => f0) s' z (OK s' (or_introl eq_refl)) E1) as (_ & _ & A & B & _).
        rewrite !list_sum_cons, A, B. destruct IH as [-> ->]; [intros; apply OK; now right|now split]. }
      destruct ZC as [-> ->].
      assert (ZD : z_max_degree F (insts V) <= D).
      { unfold z_max_degree. apply max_ub. intros zi Hz. now destruct (OK zi Hz) as (_ & _ & _ & _ & H). }
      unfold zero_error. assert ((n_z F (insts V) - k) * (1 + z_max_degree F (insts V)) <= tables_vars * (1 + D)) by (apply Nat.mul_le_mono; lia). lia.
  Qed.
End Zero.
