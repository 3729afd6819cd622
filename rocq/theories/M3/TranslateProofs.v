(** Compilation of M3 tables: constraints, flushes and exponentiations (for C78). *)
Require Import Coq.NArith.NArith Coq.Arith.Arith Coq.Lists.List Coq.Bool.Bool Lia.
From Verif Require Import Base.Fld Base.Lists Base.Sums Math.ArithModel Math.ArithProofs Math.ArithProps Field.TowerModel Field.TowerProofs
  Transparent.TransparentModel Gkr.ExpModel Cs.ChannelModel Cs.FlushModel Cs.VerifyModel Evalcheck.OracleModel Evalcheck.EvalModel Evalcheck.SymbolicModel
  M3.CompileModel M3.CompileSpec M3.RemapProofs M3.BuilderProofs M3.CompileProofs.
Import ListNotations.
Local Close Scope N_scope.
Local Open Scope nat_scope.

Lemma mark_from used : forall s u, (forall i, nth i used false = true -> s + i < length u) ->
  exists u', fold_left (fun u iu => try u <- u; if snd iu : bool then (if (fst iu <? length u)%nat then Ok (upd u (fst iu) true) else Panic) else Ok u)
      (combine (seq s (length used)) used) (Ok u) = Ok u' /\ length u' = length u /\
    forall i, nth i u' false = true <-> nth i u false = true \/ (s <= i /\ nth (i - s) used false = true).
Proof.
  induction used as [|b used IH]; intros s u H; cbn [length seq combine fold_left].
  - exists u. split; [reflexivity|]. split; [reflexivity|]. intros i. split; [now left|]. intros [G|[_ G]]; [exact G|]. destruct (i - s); discriminate.
  - cbn [rbind fst snd]. assert (B : b = true -> s < length u) by (intros ->; specialize (H 0 eq_refl); lia).
    set (u1 := if b then upd u s true else u).
    assert (E1 : (if b then if s <? length u then Ok (upd u s true) else Panic else Ok u) = Ok u1).
    { unfold u1. destruct b; [|reflexivity]. now rewrite (proj2 (Nat.ltb_lt _ _) (B eq_refl)). }
    rewrite E1. assert (L1 : length u1 = length u) by (unfold u1; destruct b; [apply upd_length|reflexivity]).
    destruct (IH (S s) u1) as (u' & E & EL & ES).
    { intros i Hi. rewrite L1. specialize (H (S i) Hi). lia. }
    exists u'. split; [exact E|]. split; [congruence|]. intros i. rewrite ES.
    assert (N1 : nth i u1 false = true <-> nth i u false = true \/ i = s /\ b = true).
    { unfold u1. destruct b.
      - destruct (Nat.eq_dec i s) as [->|N].
        + split; [auto|]. intros _. apply nth_error_nth. apply nth_error_upd_eq, B. reflexivity.
        + assert (X : nth i (upd u s true) false = nth i u false).
          { destruct (Nat.lt_ge_cases i (length u)) as [Hl|Hl].
            - destruct (nth_error_ex u i Hl) as [b' Eb]. rewrite (nth_error_nth u i false Eb). apply nth_error_nth. rewrite nth_error_upd_ne by congruence. exact Eb.
            - rewrite !nth_overflow; [reflexivity|exact Hl|rewrite upd_length; exact Hl]. }
          rewrite X. split; [auto|]. intros [G|[G _]]; [exact G|contradiction].
      - split; [auto|]. intros [G|[_ G]]; [exact G|discriminate]. }
    rewrite N1. split.
    + intros [[G|[-> G]]|[G1 G2]]; [now left| |].
      * right. split; [lia|]. rewrite Nat.sub_diag. exact G.
      * right. split; [lia|]. replace (i - s) with (S (i - S s)) by lia. exact G2.
    + intros [G|[G1 G2]]; [left; now left|]. destruct (i - s) as [|d] eqn:Ed.
      * left. right. split; [lia|exact G2].
      * right. split; [lia|]. replace (i - S s) with d by lia. exact G2.
Qed.

Section Translate.
  Variable L : nat.
  Notation F := (TF L).
  Notation tbl := (tbl L).

  Lemma mark_ok u used : (forall i, nth i used false = true -> i < length u) ->
    exists u', mark u used = Ok u' /\ length u' = length u /\ forall i, nth i u' false = true <-> nth i u false = true \/ nth i used false = true.
  Proof.
    intros H. destruct (mark_from used 0 u H) as (u' & E & EL & ES). exists u'. split; [exact E|]. split; [exact EL|]. intros i. rewrite ES, Nat.sub_0_r.
    split; (intros [G|G]; [now left|right]); [apply G|split; [lia|exact G]].
  Qed.
  Lemma mark_all_ok (zs : list (circuit F)) : forall u, (forall c, In c zs -> n_vars c <= length u) ->
    exists u', mark_all L u zs = Ok u' /\ length u' = length u /\ forall i, nth i u' false = true <-> nth i u false = true \/ exists c, In c zs /\ In (SVar i) c.
  Proof.
    induction zs as [|c zs IH]; intros u H; cbn [mark_all].
    - exists u. split; [reflexivity|]. split; [reflexivity|]. intros i. split; [now left|]. intros [G|(c & [] & _)]; exact G.
    - destruct (vars_usage_correct F c) as (us & E & LU & SU & _). rewrite E. cbn [of_opt rbind].
      destruct (mark_ok u us) as (u1 & E1 & L1 & S1).
      { intros i Hi. apply SU in Hi. apply in_n_vars in Hi. specialize (H c (or_introl eq_refl)). lia. }
      rewrite E1. cbn [rbind]. destruct (IH u1) as (u2 & E2 & L2 & S2); [intros c' Hc; rewrite L1; apply H; now right|].
      exists u2. split; [exact E2|]. split; [congruence|]. intros i. rewrite S2, S1, SU. split.
      + intros [[G|G]|(c' & G1 & G2)]; [now left|right; exists c; split; [now left|exact G]|right; exists c'; split; [now right|exact G2]].
      + intros [G|(c' & [<-|G1] & G2)]; [left; now left|left; now right|right; eauto].
  Qed.

  Lemma dense_indices_length inv u : forall k, length (dense_indices inv k u) = length u.
  Proof. induction u as [|b u IH]; intros k; [reflexivity|]. destruct b; cbn [dense_indices length]; now rewrite IH. Qed.
  Lemma dense_spec inv u : forall k ids i, length ids = length u -> nth i u false = true ->
    exists p, nth_error (dense_indices inv k u) i = Some (k + p) /\ nth_error (dense_ids u ids) p = nth_error ids i.
  Proof.
    induction u as [|b u IH]; intros k ids i HL H; [destruct i; discriminate|]. destruct ids as [|id ids]; [discriminate|]. injection HL as HL.
    unfold dense_ids. cbn [combine filter fst]. destruct i as [|i]; cbn [nth] in H.
    - subst b. exists 0. cbn [dense_indices nth_error map snd]. split; [f_equal; lia|reflexivity].
    - destruct b; cbn [dense_indices nth_error].
      + destruct (IH (S k) ids i HL H) as (p & E1 & E2). exists (S p). split; [rewrite E1; f_equal; lia|exact E2].
      + destruct (IH k ids i HL H) as (p & E1 & E2). exists p. split; [exact E1|exact E2].
  Qed.
  Lemma dense_in u : forall ids id, In id (dense_ids u ids) -> In id ids.
  Proof.
    unfold dense_ids. intros ids id H. apply in_map_iff in H as ([b x] & <- & H). apply filter_In in H as [H _]. now apply in_combine_r in H.
  Qed.

  Notation same_constraint := (CompileSpec.same_constraint L).

  Lemma translate_ok t lv zs ids : (forall c, In c zs -> cwf F c /\ n_vars c <= length ids) ->
    exists tc, translate_constraint_set L t lv zs ids = Ok tc /\ tc_table L tc = t /\ tc_log_values_per_row L tc = lv /\
      (forall id, In id (tc_ids L tc) -> In id ids) /\ Forall2 (same_constraint ids (tc_ids L tc)) zs (tc_constraints L tc).
  Proof.
    intros H. unfold translate_constraint_set. destruct (mark_all_ok zs (repeat false (length ids))) as (u & EU & LU & SU).
    { intros c Hc. rewrite repeat_length. apply H, Hc. }
    rewrite EU. cbn [rbind]. rewrite repeat_length in LU. set (tids := dense_ids u ids).
    assert (USED : forall c i, In c zs -> In (SVar i) c -> nth i u false = true) by (intros c i Hc Hi; apply SU; right; eauto).
    assert (G : exists cs, rmap (fun c => match remap_vars c (dense_indices (length ids) 0 u) with Ok c' => Ok (c', None) | _ => Panic end) zs = Ok cs /\ Forall2 (same_constraint ids tids) zs cs).
    { clear SU EU. induction zs as [|z zs IH]; [exists []; split; [reflexivity|constructor]|]. destruct IH as (cs & E & FA); [intros c Hc; apply H; now right|intros c i Hc; apply USED; now right|].
      cbn [rmap]. destruct (H z (or_introl eq_refl)) as [W NV]. destruct (remap_ok F z (dense_indices (length ids) 0 u)) as [z' EZ].
      { intros i Hi. rewrite dense_indices_length, LU. apply in_n_vars in Hi. lia. }
      rewrite EZ. cbn [rbind]. rewrite E. cbn [rbind]. exists ((z', None) :: cs). split; [reflexivity|]. constructor; [|exact FA].
      assert (AT : forall i j, In (SVar i) z -> nth_error (dense_indices (length ids) 0 u) i = Some j -> nth_error tids j = nth_error ids i).
      { intros i j Hi Hj. destruct (dense_spec (length ids) u 0 ids i (eq_sym LU) (USED z i (or_introl eq_refl) Hi)) as (p & E1 & E2). rewrite E1 in Hj. injection Hj as <-. exact E2. }
      split; [reflexivity|]. cbn [fst]. split; [eapply remap_wf; eauto|]. split; [|split; [eapply remap_degree; eauto|split; [eexists; exact EZ|]]].
      - apply n_vars_le. intros j Hj. destruct (remap_in F _ _ _ _ EZ Hj) as (i & Hi & Ei). apply nth_error_Some. rewrite (AT i j Hi Ei). apply nth_error_Some. apply in_n_vars in Hi. lia.
      - intros f. apply (remap_evaluate F z _ z' _ _ EZ). intros i j Hi Hj. rewrite !nth_error_map, (AT i j Hi Hj). reflexivity. }
    destruct G as (cs & E & FA). rewrite E. cbn [rbind]. eexists. split; [reflexivity|]. split; [reflexivity|]. split; [reflexivity|]. split; [|exact FA]. apply dense_in.
  Qed.

  (** * One partition *)
  Definition agrees (m : olookup) (lk : cid -> nat) : Prop := forall c id, lookup m c = Ok id -> lk c = id.
  Notation exps_at := (CompileSpec.exps_at L).
  Notation flush_at := (CompileSpec.flush_at L).
  Notation exps_in := (CompileSpec.exps_in L).
  Notation tables_at := (CompileSpec.tables_at L).

  Lemma rmap_lookup m lk cs : agrees m lk -> (forall c, In c cs -> In c (map fst m)) -> rmap (lookup m) cs = Ok (map lk cs).
  Proof.
    intros A. induction cs as [|c cs IH]; intros H; [reflexivity|]. cbn [rmap map]. destruct (lookup_in m c) as [id E]; [apply H; now left|].
    rewrite E. cbn [rbind]. rewrite IH by (intros; apply H; now right). cbn [rbind]. now rewrite (A c id E).
  Qed.
  Lemma rmap_map {A B} (f : A -> res B) g l : (forall x, In x l -> f x = Ok (g x)) -> rmap f l = Ok (map g l).
  Proof. induction l as [|x l IH]; intros H; [reflexivity|]. cbn [rmap map]. rewrite H by now left. cbn [rbind]. rewrite IH by (intros; apply H; now right). reflexivity. Qed.

  Lemma compile_part_ok m t p lv : table_ok L t -> part_of L t lv = Some p -> (forall n, n < length (t_cols L t) -> In (t_id L t, n) (map fst m)) ->
    exists tcs, forall lk, agrees m lk -> compile_part L m t p = Ok (exps_in lk t p, map (flush_at lk (t_id L t) (p_lv L p)) (p_flushes L p), tcs) /\ tables_at lk t p tcs.
  Proof.
    intros [TC TP] HP REG. destruct (TP lv p HP) as (PL & PC & PZ & PF).
    assert (OWN : forall n lv k, column_of L t n lv k -> n <= length (t_cols L t) -> In k (map fst m)).
    { intros n lv' [a b] (H1 & H2 & _) Hn. cbn [fst snd] in *. subst a. apply REG. lia. }
    set (lk0 := fun c => match lookup m c with Ok id => id | _ => 0 end).
    assert (A0 : agrees m lk0) by (intros c id E; unfold lk0; now rewrite E).
    assert (EQ : forall lk, agrees m lk -> forall k, In k (map fst m) -> lk k = lk0 k).
    { intros lk A k Hk. destruct (lookup_in m k Hk) as [id E]. now rewrite (A k id E), (A0 k id E). }
    assert (INP : forall k, In k (p_cols L p) -> In k (map fst m)) by (intros k Hk; apply (OWN (length (t_cols L t)) lv); [now apply PC|lia]).
    assert (TCS : exists tcs, match p_zeros L p with [] => Ok [] | _ => try c <- translate_constraint_set L (t_id L t) (p_lv L p) (p_zeros L p) (map lk0 (p_cols L p)); Ok [c] end = Ok tcs /\ tables_at lk0 t p tcs).
    { unfold tables_at. destruct (p_zeros L p) as [|z zs] eqn:EZ; [exists []; split; reflexivity|]. destruct (translate_ok (t_id L t) (p_lv L p) (z :: zs) (map lk0 (p_cols L p))) as (tc & E & H1 & H2 & H3 & H4).
      { intros c Hc. rewrite map_length. apply (PZ c Hc). }
      rewrite E. cbn [rbind]. exists [tc]. split; [reflexivity|]. exists tc. auto. }
    destruct TCS as (tcs & ET & AT). exists tcs. intros lk A.
    assert (EM : map lk (p_cols L p) = map lk0 (p_cols L p)) by (apply map_ext_in; intros k Hk; apply (EQ lk A), INP, Hk).
    split; [|unfold tables_at in *; rewrite EM; exact AT].
    unfold compile_part. rewrite (rmap_lookup m lk) by auto. cbn [rbind].
    rewrite (rmap_map _ (fun c : cid => match nth_error (t_cols L t) (snd c) with Some i => exps_at lk i | None => [] end)).
    - cbn [rbind]. rewrite (rmap_map _ (flush_at lk (t_id L t) (p_lv L p))).
      + cbn [rbind]. rewrite EM, ET. cbn [rbind]. reflexivity.
      + intros f Hf. unfold compile_flush. rewrite (rmap_lookup m lk) by (solve [auto] || (intros c Hc; apply (OWN (length (t_cols L t)) lv); [apply (PF f Hf c); now left|lia])). cbn [rbind].
        rewrite (rmap_lookup m lk) by (solve [auto] || (intros c Hc; apply (OWN (length (t_cols L t)) lv); [apply (PF f Hf c); now right|lia])). cbn [rbind]. unfold flush_at. now rewrite map_map.
    - intros k Hk. destruct (PC k Hk) as (E1 & E2 & i & E3 & E4). unfold table_column. rewrite E3. cbn [of_opt rbind].
      destruct (TC _ _ E3) as (EI & CO & _). unfold exps_of, exps_at. assert (SELF : In (ci_id L i) (map fst m)) by (rewrite EI; apply REG, E2).
      destruct (lookup_in m _ SELF) as [r Er]. unfold column_ok in CO. destruct (ci_def L i) as [l|ks c|k' ix b|k' s size bits|k' pad s nz'|k' off b sv|k' d|data l|max|c|bits g l|bits g l]; try reflexivity.
      + rewrite (rmap_lookup m lk) by (solve [auto] || (intros c Hc; apply (OWN (snd k) 0); [apply CO, Hc|lia])). cbn [rbind]. rewrite Er. cbn [rbind]. now rewrite (A _ _ Er).
      + rewrite (rmap_lookup m lk) by (solve [auto] || (intros c Hc; apply (OWN (snd k) 0); [apply CO, Hc|lia])). cbn [rbind].
        assert (BG : In g (map fst m)) by (apply (OWN (snd k) 0); [apply (proj1 (proj2 (proj2 (proj2 CO))))|lia]). destruct (lookup_in m g BG) as [x Ex]. rewrite Ex. cbn [rbind]. rewrite Er. cbn [rbind]. now rewrite (A _ _ Er), (A _ _ Ex).
  Qed.
End Translate.
