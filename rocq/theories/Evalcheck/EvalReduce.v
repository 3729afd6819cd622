(** What the value of the multilinear extension of an oracle at a point is, kind by kind (C44). *)
Require Import Coq.setoid_ring.Ring Coq.Arith.Arith Coq.Lists.List Coq.Bool.Bool Lia.
From Verif Require Import Base.Fld Base.Lists Base.Sums Math.MleSpec Math.MleModel Math.ArithModel Math.ArithProofs
  Field.Quad Field.TowerProofs Transparent.TransparentModel Transparent.TransparentProps Transparent.TowerBasisProps
  Transparent.ShiftModel Transparent.ShiftProps
  Evalcheck.OracleModel Evalcheck.EvalModel Evalcheck.EvalSpec Evalcheck.EvalMle Evalcheck.EvalProofs.
Import ListNotations.

Section Reduce.
  Variable L : nat.
  Notation F := (TF L).
  Local Open Scope fld_scope.
  Add Ring FLring : (f_ring (TF L)).

  Lemma weighted_spec (V : values L) p inner evals :
    Forall2 (fun id e => mle (V id) p = e) (map fst inner) evals ->
    weighted evals (map snd inner) = mle (fun x => fold_right (fun ic acc => snd ic * V (fst ic) x + acc) 0 inner) p.
  Proof.
    revert evals. induction inner as [|[i a] inner IH]; intros evals H; cbn [map] in H; inversion H; subst.
    - cbn. symmetry. apply mle_const.
    - cbn [map combine fold_right fst snd]. unfold weighted in *. cbn [combine fold_right fst snd]. rewrite IH by auto.
      rewrite mle_add, mle_scale. ring.
  Qed.


  Section One.
    Variables (os : oset L) (V : values L) (id : nat) (o : oracle L) (p : list F).
    Hypothesis HO : oset_ok os.
    Hypothesis E : nth_error os id = Some (Some o).
    Hypothesis HP : length p = o_nvars o.

    Lemma variant_of : variant_ok os id (o_nvars o) (o_variant o).
    Proof. now apply HO. Qed.

    Lemma transparent_value q : o_variant o = Transparent q ->
      exists t, mv_eval q p = Ok (mle t p) /\ forall V, consistent os V -> mle (V id) p = mle t p.
    Proof.
      intros EV. assert (K := variant_of). rewrite EV in K. destruct K as [t [_ HT]]. exists t.
      split; [now apply HT|]. intros V' C. apply mle_ext. rewrite HP. intros x Hx.
      assert (D := C _ _ E x Hx). rewrite EV in D. cbn [defined_at] in D. rewrite HT in D by apply vertex_length.
      injection D as <-. now rewrite mle_on_cube.
    Qed.

    Lemma structured_value q : o_variant o = Structured q ->
      (length p <= n_vars q)%nat /\
      exists t, evaluate q (p ++ repeat 0 (n_vars q - length p)) = Some (mle t p) /\ forall V, consistent os V -> mle (V id) p = mle t p.
    Proof.
      intros EV. assert (K := variant_of). rewrite EV in K. destruct K as [Hn [t HT]]. split; [lia|]. exists t.
      split; [rewrite HP; now apply HT|]. intros V' C. apply mle_ext. rewrite HP. intros x Hx.
      assert (D := C _ _ E x Hx). rewrite EV in D. cbn [defined_at] in D. rewrite HT in D by apply vertex_length.
      injection D as <-. now rewrite mle_on_cube.
    Qed.

    Hypothesis C : consistent os V.

    Lemma repeating_value i k : o_variant o = Repeating i k -> mle (V id) p = mle (V i) (firstn (length p - k) p).
    Proof.
      intros EV. rewrite <- mle_repeat by lia. apply mle_ext. rewrite HP. intros x Hx.
      assert (D := C _ _ E x Hx). rewrite EV in D. exact D.
    Qed.

    Lemma projected_value i vs s : o_variant o = Projected i vs s -> mle (V id) p = mle (V i) (firstn s p ++ vs ++ skipn s p).
    Proof.
      intros EV. assert (K := variant_of). rewrite EV in K. destruct K as [Hs _].
      rewrite <- mle_project by lia. apply mle_ext. rewrite HP. intros x Hx.
      assert (D := C _ _ E x Hx). rewrite EV in D. exact D.
    Qed.

    Lemma padded_value i pad nz s : o_variant o = ZeroPadded i pad nz s ->
      mle (V id) p = mle (fun x => if (x =? nz)%nat then 1 else 0) (firstn pad (skipn s p)) *
                     mle (V i) (firstn s p ++ skipn (s + pad) p).
    Proof.
      intros EV. assert (K := variant_of). rewrite EV in K. destruct K as [Hs _].
      rewrite <- mle_pad by lia. apply mle_ext. rewrite HP. intros x Hx.
      assert (D := C _ _ E x Hx). rewrite EV in D. exact D.
    Qed.

    Lemma combination_value m off inner evals : o_variant o = LinearCombination m off inner ->
      Forall2 (fun id e => mle (V id) p = e) (map fst inner) evals ->
      mle (V id) p = off + weighted evals (map snd inner).
    Proof.
      intros EV H. rewrite (weighted_spec V p) by auto.
      rewrite <- (mle_const F off p), <- mle_add. apply mle_ext. rewrite HP. intros x Hx.
      assert (D := C _ _ E x Hx). rewrite EV in D. exact D.
    Qed.

    Lemma composite_value m ids circ : o_variant o = Composite m ids circ ->
      mle (V id) p = mle (comp_at V ids circ) p.
    Proof.
      intros EV. apply mle_ext. rewrite HP. intros x Hx.
      assert (D := C _ _ E x Hx). rewrite EV in D. cbn [defined_at] in D. unfold comp_at. now rewrite D.
    Qed.
  End One.

  (** The claim [mle (V id) p = e] is a sumcheck claim for the product of the oracles [m]. *)
  Definition reduction (os : oset L) (id : nat) (p : list F) (os' : oset L) (m : nat * nat) (d : nat) : Prop :=
    oset_ok os' /\
    (exists o1, nth_error os' (fst m) = Some (Some o1) /\ o_nvars o1 = d) /\
    (exists o2, nth_error os' (snd m) = Some (Some o2) /\ o_nvars o2 = d) /\
    forall V, consistent os' V -> mle (V id) p = sumn (2 ^ d) (fun x => V (fst m) x * V (snd m) x).

  Lemma shifted_reduces (os : oset L) id o p i off b sv : oset_ok os -> nth_error os id = Some (Some o) ->
    length p = o_nvars o -> o_variant o = Shifted i off b sv ->
    exists oi q m, shifted_sumcheck_meta os i off b sv p = Ok (os ++ meta_ext L os i b oi p q, m) /\
      nth_error os i = Some (Some oi) /\
      reduction os id p (os ++ meta_ext L os i b oi p q) m b.
  Proof.
    intros HS E HP EV. assert (HO := HS _ _ E). rewrite EV in HO. cbn [variant_ok] in HO.
    destruct HO as [[Hb Ho] (Hlt & oi & Ei & En)]. exists oi. unfold shifted_sumcheck_meta.
    rewrite (meta_eq L _ i b oi) by (auto; lia).
    assert (LF : length (firstn b p) = b) by (rewrite firstn_length; lia).
    pose proof (shift_new_correct F b off sv (firstn b p)) as SN.
    rewrite LF, Nat.eqb_refl, (proj2 (Nat.ltb_lt _ _) (proj1 Ho)), (proj2 (Nat.ltb_lt _ _) (proj2 Ho)) in SN. cbn [andb] in SN.
    assert (SE := shift_evaluate_correct F (TF_char2 L) b off sv (firstn b p) _ SN). rewrite SN. cbn [rbind snd fst].
    rewrite Nat.ltb_irrefl.
    set (s := mkShift b off sv (firstn b p)) in *. set (m := (mkMv b (shift_evaluate s), L)) in *.
    destruct (meta_ok L os i b b oi p m (shift_table F sv b off (firstn b p)) HS Ei) as (M1 & M2 & M3 & M4);
      try (rewrite ?skipn_length; lia); auto.
    exists m. eexists. split; [reflexivity|]. split; auto. split; [exact M1|]. split; [exact M2|]. split; [exact M3|].
    intros V C. cbn [fst snd].
    transitivity (mle (shifted_value sv b off (V i)) p).
    - apply mle_ext. rewrite HP. intros x Hx.
      assert (E' := nth_error_grow _ (meta_ext L os i b oi p m) _ _ E).
      assert (D := C _ _ E' x Hx). rewrite EV in D. exact D.
    - unfold shifted_value. rewrite mle_shifted by (auto; lia). apply sumn_ext. intros x Hx.
      destruct (M4 V C x Hx) as [-> ->]. reflexivity.
  Qed.

  Lemma packed_reduces (os : oset L) id o p i d : oset_ok os -> nth_error os id = Some (Some o) ->
    length p = o_nvars o -> o_variant o = Packed i d ->
    exists oi, nth_error os i = Some (Some oi) /\
      ((L < o_level oi + d)%nat /\ packed_sumcheck_meta os i d p = Err \/
       (o_level oi + d <= L)%nat /\ exists q m,
         packed_sumcheck_meta os i d p = Ok (os ++ meta_ext L os i 0 oi p q, m) /\
         reduction os id p (os ++ meta_ext L os i 0 oi p q) m d).
  Proof.
    intros HS E HP EV. assert (HO := HS _ _ E). rewrite EV in HO. cbn [variant_ok] in HO.
    destruct HO as (Hlt & oi & Ei & En). exists oi. split; auto. unfold packed_sumcheck_meta, n_vars_of, level_of.
    rewrite (oget_ok L _ _ _ Ei). cbn [rbind]. rewrite (proj2 (Nat.ltb_ge _ _)) by lia.
    rewrite (meta_eq L _ i 0 oi) by (auto; lia). rewrite tower_basis_new_spec.
    destruct (Nat.leb_spec (o_level oi + d) L) as [Hl|Hl]; [|left; auto]. right. split; auto. cbn [rbind snd fst].
    rewrite (proj2 (Nat.ltb_ge _ _)) by auto.
    set (m := (tower_basis_poly L (d, o_level oi), (o_level oi + d)%nat)) in *.
    destruct (meta_ok L os i 0 d oi p m (basis_product L (o_level oi)) HS Ei) as (M1 & M2 & M3 & M4);
      try (rewrite ?skipn_length; lia); auto.
    { now apply tower_basis_correct. }
    exists m. eexists. split; [reflexivity|]. split; [exact M1|]. split; [exact M2|]. split; [exact M3|].
    intros V C. cbn [fst snd].
    transitivity (mle (fun x => sumn (2 ^ d) (fun k => basis_product L (o_level oi) k * V i (x * 2 ^ d + k)%nat)) p).
    - apply mle_ext. rewrite HP. intros x Hx.
      assert (E' := nth_error_grow _ (meta_ext L os i 0 oi p m) _ _ E).
      assert (D := C _ _ E' x Hx). rewrite EV in D. apply D. now apply nth_error_grow.
    - rewrite mle_packed. apply sumn_ext. intros x Hx. destruct (M4 V C x Hx) as [-> ->]. reflexivity.
  Qed.

  (** Recording a deferred sumcheck. *)
  Lemma bivariate_state (st : vstate L) id p (os' : oset L) m d e :
    vstate_ok st -> (exists ext, os' = st_oracles st ++ ext) -> reduction (st_oracles st) id p os' m d ->
    let st' := set_sums (add_bivariate_sumcheck m (st_sums st) d e) (set_oracles os' st) in
    vstate_ok st' /\
    forall V, consistent os' V -> (obligations V st' <-> obligations V st /\ mle (V id) p = e).
  Proof.
    intros (HO & HS & HM & HC) [ext Ext] (HO' & X1 & X2 & HT) st'.
    assert (UG : forall k u, ungrouped_ok (st_oracles st) k u -> ungrouped_ok os' k u).
    { intros k u (W1 & W2 & W3 & W4). split; auto. split; auto. split; auto. intros i Hi. destruct (W4 i Hi) as (o & Eo & En).
      exists o. split; auto. subst os'. now apply nth_error_grow. }
    assert (ALL : forall k, (k < length (add_bivariate_sumcheck m (st_sums st) d e))%nat <-> (k < length (st_sums st) \/ k <= d)%nat).
    { intros k. rewrite add_bivariate_length. lia. }
    split; [split; [|split; [|split]]|].
    - exact HO'.
    - intros k b u E Hu. cbn [st' set_sums set_oracles st_sums st_oracles] in *.
      apply (add_bivariate_spec L _ _ _ _ _ _ E) in Hu. destruct Hu as [Hu|[-> ->]].
      + destruct (nth_error (st_sums st) k) as [b'|] eqn:E'.
        * erewrite nth_error_nth in Hu by exact E'. destruct (HS _ _ _ E' Hu). auto.
        * apply nth_error_None in E'. rewrite nth_overflow in Hu by auto. destruct Hu.
      + split; [|discriminate]. split; [|split; [|split]]; cbn [u_ids u_comp].
        * intros i s Ei. destruct i as [|[|[|i]]]; cbn [nth_error bivariate_product] in Ei; try (destruct i; discriminate);
            injection Ei as <-; (split; [|exact I]); intros r Hr; cbn in Hr; intuition lia.
        * discriminate.
        * cbn. lia.
        * intros i [<-|[<-|[]]]; assumption.
    - intros q b u Hb Hu. apply UG. eapply HM; eauto.
    - intros c HI. destruct (HC c HI) as (o & Eo & En). exists o. split; auto. cbn [st' set_sums set_oracles st_oracles]. subst os'.
      now apply nth_error_grow.
    - intros V C. rewrite (HT V C). unfold obligations. cbn [st' set_sums set_oracles st_sums st_oracles st_committed st_mles].
      assert (SM : sum_true V d (mkUn [fst m; snd m] bivariate_product e) <-> sumn (2 ^ d) (fun x => V (fst m) x * V (snd m) x) = e).
      { unfold sum_true. cbn [u_ids u_comp u_sum]. replace (sumn (2 ^ d) (comp_at V [fst m; snd m] bivariate_product)) with
          (sumn (2 ^ d) (fun x => V (fst m) x * V (snd m) x)); [tauto|]. apply sumn_ext. intros x _. reflexivity. }
      split.
      + intros (B1 & B2 & B3). split; [split; [exact B1|split; [|exact B3]]|].
        * intros k b u E Hu. destruct (nth_error (add_bivariate_sumcheck m (st_sums st) d e) k) as [b'|] eqn:E'.
          -- apply (B2 k b' u E'). apply (add_bivariate_spec L _ _ _ _ _ _ E'). left. now erewrite nth_error_nth by exact E.
          -- apply nth_error_None in E'. assert (k < length (st_sums st))%nat by (apply nth_error_Some; congruence).
             assert (X := proj2 (ALL k) (or_introl H)). lia.
        * apply (proj1 SM). destruct (nth_error (add_bivariate_sumcheck m (st_sums st) d e) d) as [b|] eqn:E.
          -- refine (B2 d b _ E _). apply (add_bivariate_spec L _ _ _ _ _ _ E). auto.
          -- apply nth_error_None in E. assert (X := proj2 (ALL d) (or_intror (le_n d))). lia.
      + intros ((B1 & B2 & B3) & HE). split; [exact B1|]. split; [|exact B3].
        intros k b u E Hu. apply (add_bivariate_spec L _ _ _ _ _ _ E) in Hu. destruct Hu as [Hu|[-> ->]].
        * destruct (nth_error (st_sums st) k) as [b'|] eqn:E'.
          -- erewrite nth_error_nth in Hu by exact E'. eapply B2; eauto.
          -- apply nth_error_None in E'. rewrite nth_overflow in Hu by auto. destruct Hu.
        * exact (proj2 SM HE).
  Qed.

  (** Recording a deferred claim on a composition. *)
  Lemma composite_state (st : vstate L) id o p m ids circ pos e :
    vstate_ok st -> nth_error (st_oracles st) id = Some (Some o) -> length p = o_nvars o -> o_variant o = Composite m ids circ ->
    (forall q b, nth_error (st_mles st) pos = Some (q, b) -> q = p) ->
    let st' := set_mles (add_composite_sumcheck pos p (st_mles st) ids circ e) st in
    vstate_ok st' /\
    forall V, consistent (st_oracles st) V -> (obligations V st' <-> obligations V st /\ mle (V id) p = e).
  Proof.
    intros HS E HP EV HQ st'. assert (HO := proj1 HS _ _ E). rewrite EV in HO. cbn [variant_ok] in HO.
    destruct HO as (Hm & HR & W & NE & NV). split; [split; [|split; [|split]]|]; try apply HS.
    - intros q b u HI Hu. destruct (add_composite_spec L _ _ _ _ _ _ _ _ _ HQ HI Hu) as [(b' & HI' & Hu')|[-> ->]].
      + apply (proj1 (proj2 (proj2 HS)) q b' u HI' Hu').
      + split; auto. split; auto. split; auto. cbn [u_ids]. intros i Hi. destruct (HR i Hi) as (_ & oi & Ei & En).
        exists oi. split; [exact Ei|congruence].
    - intros V C. rewrite (composite_value _ V id o p E HP C _ _ _ EV). unfold obligations. cbn [st' set_mles st_sums st_oracles st_committed st_mles].
      split.
      + intros (B1 & B2 & B3). split; [split; [exact B1|split; [exact B2|]]|].
        * intros q b u HI Hu. destruct (add_composite_old L pos p (st_mles st) ids circ e q b u HI Hu) as (b' & HI' & Hu'). eauto.
        * destruct (add_composite_new L pos p (st_mles st) ids circ e HQ) as (b' & HI & Hu). exact (B3 p b' _ HI Hu).
      + intros ((B1 & B2 & B3) & HE). split; [exact B1|]. split; [exact B2|]. intros q b u HI Hu.
        destruct (add_composite_spec L _ _ _ _ _ _ _ _ _ HQ HI Hu) as [(b' & HI' & Hu')|[-> ->]]; [eauto|]. exact HE.
  Qed.
End Reduce.
