(** C44: true claims can be proven to the evalcheck verifier. *)
Require Import Coq.setoid_ring.Ring Coq.Arith.Arith Coq.Lists.List Coq.Bool.Bool Lia.
From Verif Require Import Base.Fld Base.Lists Base.Sums Math.MleSpec Math.MleModel Math.ArithModel Math.ArithProofs
  Field.Quad Field.TowerProofs Transparent.TransparentModel Transparent.TransparentProps Transparent.TowerBasisProps
  Transparent.ShiftModel Transparent.ShiftProps Protocol.Proto
  Evalcheck.OracleModel Evalcheck.EvalModel Evalcheck.EvalSpec Evalcheck.EvalMle Evalcheck.EvalProofs
  Evalcheck.EvalReduce Evalcheck.EvalExtend.
Import ListNotations.

(** [accepts p tape a]: reading exactly [tape], the verifier [p] returns [a] without sampling. *)
Inductive accepts {F : field} {A} : vproto F A -> list F -> A -> Prop :=
| accepts_ret a : accepts (VRet (Ok a)) [] a
| accepts_read n k l t a : length l = n -> accepts (k l) t a -> accepts (VRead n k) (l ++ t) a.

Lemma accepts_bind {F : field} {A B} (p : vproto F A) (f : A -> vproto F B) t1 a t2 b :
  accepts p t1 a -> accepts (f a) t2 b -> accepts (vbind p f) (t1 ++ t2) b.
Proof.
  intros H1 H2. induction H1; cbn [vbind app]; auto. rewrite <- app_assoc. constructor; auto.
Qed.

Lemma accepts_run {F : field} {A} (p : vproto F A) t a : accepts p t a ->
  forall rest cs, vrun p (t ++ rest) cs = Ok (a, rest, cs).
Proof.
  induction 1 as [a|n k l t a H1 H2 IH]; intros rest cs; cbn [vrun app]; auto.
  rewrite <- app_assoc, !app_length. destruct (Nat.ltb_spec (length l + (length t + length rest)) n); [lia|].
  rewrite firstn_app, skipn_app, (firstn_all2 l), (skipn_all2 l) by lia.
  replace (n - length l)%nat with 0%nat by lia. cbn [firstn skipn app]. rewrite app_nil_r. apply IH.
Qed.

Definition can {F : field} {A} (p : vproto F A) (good : A -> Prop) : Prop := exists t a, accepts p t a /\ good a.

Lemma can_ret {F : field} {A} (a : A) (good : A -> Prop) : good a -> can (F := F) (VRet (Ok a)) good.
Proof. intros H. exists [], a. split; auto. constructor. Qed.

Lemma can_bind {F : field} {A B} (p : vproto F A) (f : A -> vproto F B) g1 (g2 : B -> Prop) :
  can p g1 -> (forall a, g1 a -> can (f a) g2) -> can (vbind p f) g2.
Proof.
  intros (t & a & H & G) HF. destruct (HF a G) as (t2 & b & H2 & G2). exists (t ++ t2), b. split; auto.
  now apply accepts_bind with a.
Qed.

Lemma can_mono {F : field} {A} (p : vproto F A) (g1 g2 : A -> Prop) : can p g1 -> (forall a, g1 a -> g2 a) -> can p g2.
Proof. intros (t & a & H & G) HG. exists t, a. auto. Qed.

Section Complete.
  Variable L : nat.
  Notation F := (TF L).
  Variable u32 : F -> nat.
  Variable M : nat.
  (** every integer below [M] can be sent, among them the tags of the hints *)
  Hypothesis HM : forall k, (k < M)%nat -> exists x, u32 x = k.
  Hypothesis HM1 : (1 < M)%nat.
  Local Open Scope fld_scope.
  Add Ring FLring : (f_ring (TF L)).

  (** What the constructors of oracles do not check (C66): the tower level of a packed oracle and the
      index of a zero-padded one. *)
  Definition provable (os : oset L) : Prop :=
    forall id o, nth_error os id = Some (Some o) ->
      match o_variant o with
      | Packed i d => forall oi, nth_error os i = Some (Some oi) -> (o_level oi + d <= L)%nat
      | ZeroPadded _ pad nz _ => (nz < 2 ^ pad)%nat
      | _ => True
      end.

  (** The number of composite oracles a claim on the oracle [id] leads to, with repetitions. *)
  Fixpoint composites (os : oset L) (fuel id : nat) : nat :=
    match fuel with
    | O => 0
    | S fuel =>
      match nth_error os id with
      | Some (Some o) =>
        match o_variant o with
        | Repeating i _ | Projected i _ _ | ZeroPadded i _ _ _ => composites os fuel i
        | LinearCombination _ _ inner => fold_right (fun ic acc => composites os fuel (fst ic) + acc)%nat 0%nat inner
        | Composite _ _ _ => 1
        | _ => 0
        end
      | _ => 0
      end
    end.

  Lemma composites_app (os ext : oset L) fuel : oset_ok os -> forall id, (id < length os)%nat ->
    composites (os ++ ext) fuel id = composites os fuel id.
  Proof.
    intros HO. induction fuel as [|fuel IH]; intros id Hid; cbn [composites]; auto.
    rewrite nth_error_app1 by auto. destruct (nth_error os id) as [[o|]|] eqn:E; auto.
    assert (K := HO _ _ E). destruct (o_variant o) as [|poly|circ|i k|i vs s|i off b sv|i d|m off inner|i pad nz s|m ids circ] eqn:EV;
      cbn [variant_ok] in K; auto.
    - apply IH. destruct K as [_ [H _]]. lia.
    - apply IH. destruct K as [_ [H _]]. lia.
    - destruct K as [_ K]. clear EV. induction inner as [|[i a] inner IHi]; cbn [fold_right fst]; auto.
      rewrite IHi by (intros; apply (K i0 c); cbn; auto). rewrite IH; auto.
      destruct (K i a (or_introl eq_refl)) as [H _]. lia.
    - apply IH. destruct K as [_ [H _]]. lia.
  Qed.

  (** [st'] and [V'] contain [st] and [V], and nothing false has been recorded. *)
  Definition extends (st : vstate L) (V : values L) (st' : vstate L) (V' : values L) : Prop :=
    vstate_ok st' /\ (exists e, st_oracles st' = st_oracles st ++ e) /\ provable (st_oracles st') /\
    consistent (st_oracles st') V' /\ (forall i, (i < length (st_oracles st))%nat -> V' i = V i) /\
    (obligations V st -> obligations V' st').

  Definition post (st : vstate L) (V : values L) (k : nat) (st' : vstate L) : Prop :=
    (length (st_mles st') <= length (st_mles st) + k)%nat /\ exists V', extends st V st' V'.

  Lemma extends_refl st V : vstate_ok st -> provable (st_oracles st) -> consistent (st_oracles st) V -> extends st V st V.
  Proof. intros K P C. split; auto. split; [exists []; now rewrite app_nil_r|]. auto. Qed.

  Lemma extends_trans a Va b Vb c Vc : extends a Va b Vb -> extends b Vb c Vc -> extends a Va c Vc.
  Proof.
    intros (_ & [e1 E1] & _ & _ & A1 & O1) (K & [e2 E2] & P & C & A2 & O2). split; auto.
    split; [exists (e1 ++ e2); now rewrite E2, E1, app_assoc|]. split; auto. split; auto. split; auto.
    intros i Hi. rewrite A2; auto. rewrite E1, app_length. lia.
  Qed.

  Lemma obligations_agree (st : vstate L) V V' : vstate_ok st -> (forall i, (i < length (st_oracles st))%nat -> V' i = V i) ->
    obligations V st -> obligations V' st.
  Proof.
    intros (_ & HS & HL & HC) A (B1 & B2 & B3).
    assert (CA : forall k u x, ungrouped_ok (st_oracles st) k u -> comp_at V' (u_ids u) (u_comp u) x = comp_at V (u_ids u) (u_comp u) x).
    { intros k u x (_ & _ & _ & H). unfold comp_at. f_equal. rewrite (map_ext_in _ (fun i => V i x)); auto.
      intros i Hi. destruct (H i Hi) as (o & Eo & _). rewrite A; auto. apply nth_error_Some. congruence. }
    split; [|split].
    - intros c HI. unfold claim_true. destruct (HC c HI) as (o & Eo & _).
      rewrite A by (apply nth_error_Some; congruence). now apply B1.
    - intros n b u E Hu. unfold sum_true. rewrite (sumn_ext _ _ _ (comp_at V (u_ids u) (u_comp u))); [now apply (B2 n b u)|].
      intros x _. apply (CA n). eapply (HS n b u); eauto.
    - intros p b u E Hu. unfold mle_true. rewrite (mle_ext F _ (comp_at V (u_ids u) (u_comp u))); [now apply (B3 p b u)|].
      intros x _. apply (CA (length p)). eapply HL; eauto.
  Qed.

  Lemma meta_ext_provable (os : oset L) i k o p m : oset_ok os -> provable os -> provable (os ++ meta_ext L os i k o p m).
  Proof.
    intros HO HP id oo E. destruct (Nat.lt_ge_cases id (length os)) as [Hl|Hl].
    - assert (E' : nth_error os id = Some (Some oo)) by now rewrite nth_error_app1 in E.
      assert (H := HP _ _ E'). assert (K := HO _ _ E'). destruct (o_variant oo); auto. intros oi Ei.
      destruct K as [Hi _]. rewrite nth_error_app1 in Ei by lia. auto.
    - rewrite nth_error_app2 in E by auto. unfold meta_ext in E.
      destruct (k <? o_nvars o)%nat; cbn [app] in E; destruct (id - length os)%nat as [|[|j]]; cbn [nth_error] in E;
        try discriminate; try (destruct j; discriminate); injection E as <-; exact I.
  Qed.

  Lemma can_u32 {A} k (f : nat -> vproto F A) good : (k < M)%nat -> can (f k) good -> can (vbind (read_u32 u32) f) good.
  Proof.
    intros Hk H. destruct (HM k Hk) as [x Ex]. apply (can_bind _ _ (eq k)); [|intros ? <-; exact H].
    exists ([x] ++ []), k. split; auto. unfold read_u32. constructor; auto. cbn [hd]. rewrite Ex. constructor.
  Qed.

  Lemma can_new {A} (f : hint -> vproto F A) good : can (f NewClaim) good -> can (vbind (read_hint u32) f) good.
  Proof.
    intros H. apply (can_bind _ _ (eq NewClaim)); [|intros ? <-; exact H]. unfold read_hint.
    apply (can_u32 1); auto. now apply can_ret.
  Qed.

  Definition ready (fuel : nat) (st : vstate L) (V : values L) (id : nat) : Prop :=
    vstate_ok st /\ provable (st_oracles st) /\ consistent (st_oracles st) V /\
    (length (st_mles st) + composites (st_oracles st) fuel id < M)%nat.

  Lemma sized_grow (os ext : oset L) c : claim_sized os c -> claim_sized (os ++ ext) c.
  Proof. intros (o & E & H). exists o. split; auto. now apply nth_error_grow. Qed.

  Section Variants.
    Variable fuel n : nat.
    Hypothesis REC : forall c st V, (c_id c < n)%nat -> ready fuel st V (c_id c) -> claim_sized (st_oracles st) c ->
      claim_true V c -> can (verify_skip u32 fuel c st) (post st V (composites (st_oracles st) fuel (c_id c))).

    Lemma multilinear_complete c st V : (c_id c < n)%nat -> ready fuel st V (c_id c) -> claim_sized (st_oracles st) c ->
      claim_true V c -> can (verify_multilinear u32 (verify_skip u32 fuel) c st) (post st V (composites (st_oracles st) fuel (c_id c))).
    Proof. intros H1 H2 H3 H4. unfold verify_multilinear. apply can_new. now apply REC. Qed.

    Definition count (os : oset L) (ids : list nat) : nat := fold_right (fun id acc => composites os fuel id + acc)%nat 0%nat ids.

    Lemma count_app (os ext : oset L) ids : oset_ok os -> (forall id, In id ids -> (id < length os)%nat) ->
      count (os ++ ext) ids = count os ids.
    Proof.
      intros HO. induction ids as [|id ids IH]; intros H; cbn [count fold_right] in *; auto.
      unfold count in IH. rewrite IH by (intros; apply H; now right). rewrite composites_app; auto. apply H. now left.
    Qed.

    Lemma subclaims_complete p ids : forall st V, vstate_ok st -> provable (st_oracles st) -> consistent (st_oracles st) V ->
      (length (st_mles st) + count (st_oracles st) ids < M)%nat ->
      (forall id, In id ids -> (id < n)%nat /\ exists o, nth_error (st_oracles st) id = Some (Some o) /\ length p = o_nvars o) ->
      can (verify_subclaims u32 (verify_skip u32 fuel) ids p st)
        (fun x => fst x = map (fun id => mle (V id) p) ids /\ post st V (count (st_oracles st) ids) (snd x)).
    Proof.
      induction ids as [|id ids IH]; intros st V K P C HC HI; cbn [verify_subclaims].
      - apply can_ret. cbn [fst snd map]. split; auto. split; [lia|]. exists V. now apply extends_refl.
      - cbn [count fold_right] in HC. fold (count (st_oracles st) ids) in HC.
        destruct (HI id (or_introl eq_refl)) as (Hid & o & Eo & Ho).
        apply (can_bind _ _ (fun x => fst x = mle (V id) p /\ post st V (composites (st_oracles st) fuel id) (snd x))).
        + unfold verify_subclaim. apply can_new. apply (can_bind _ _ (eq (mle (V id) p))).
          * exists ([mle (V id) p] ++ []), (mle (V id) p). split; auto. unfold read_scalar. constructor; auto. constructor.
          * intros e <-. eapply can_bind.
            -- apply (REC (mkClaim id p (mle (V id) p)) st V Hid); [|now exists o|reflexivity].
               cbn [c_id]. split; auto. split; auto. split; auto. lia.
            -- intros st' HP'. apply can_ret. auto.
        + intros [e st1] (He & HL & V1 & X1). cbn [fst snd] in *. assert (X1' := X1). destruct X1' as (K1 & [ext E1] & P1 & C1 & A1 & O1).
          assert (LT : forall i, In i ids -> (i < length (st_oracles st))%nat).
          { intros i Hi. destruct (HI i (or_intror Hi)) as (_ & oi & Ei & _). apply nth_error_Some. congruence. }
          assert (CE : count (st_oracles st1) ids = count (st_oracles st) ids) by (rewrite E1; apply count_app; auto; apply K).
          eapply can_bind.
          * apply (IH st1 V1 K1 P1 C1); [lia|]. intros i Hi. destruct (HI i (or_intror Hi)) as (H1 & oi & Ei & Hn). split; auto.
            exists oi. split; auto. rewrite E1. now apply nth_error_grow.
          * intros [es st2] (Hes & HL2 & V2 & X2). cbn [fst snd] in *. apply can_ret. cbn [fst snd map]. split.
            -- rewrite He, Hes. f_equal. apply map_ext_in. intros i Hi. now rewrite A1 by now apply LT.
            -- split; [cbn [count fold_right]; fold (count (st_oracles st) ids); lia|]. exists V2. now apply (extends_trans st V st1 V1).
    Qed.
  End Variants.

  Lemma first_match (bs : list (list F * builder L)) p :
    exists pos, (pos <= length bs)%nat /\ (forall q b, nth_error bs pos = Some (q, b) -> q = p).
  Proof.
    exists (length bs). split; auto. intros q b E. exfalso. assert (length bs < length bs)%nat by (apply nth_error_Some; congruence). lia.
  Qed.

  Lemma variant_complete fuel c st V o :
    (forall c' st V, (c_id c' < c_id c)%nat -> ready fuel st V (c_id c') -> claim_sized (st_oracles st) c' ->
      claim_true V c' -> can (verify_skip u32 fuel c' st) (post st V (composites (st_oracles st) fuel (c_id c')))) ->
    ready (S fuel) st V (c_id c) ->
    nth_error (st_oracles st) (c_id c) = Some (Some o) -> length (c_point c) = o_nvars o -> claim_true V c ->
    can (verify_variant u32 (verify_skip u32 fuel) c (o_variant o) st) (post st V (composites (st_oracles st) (S fuel) (c_id c))).
  Proof.
    intros REC (K & P & C & HC) E HP T. assert (HO := proj1 K _ _ E). assert (PV := P _ _ E).
    unfold claim_true in T. set (p := c_point c) in *. cbn [composites] in *. rewrite E in *.
    assert (NOW : forall k, post st V k st) by (intros k; split; [lia|exists V; now apply extends_refl]).
    assert (RED : forall c', (length (st_mles st) + composites (st_oracles st) fuel (c_id c') < M)%nat ->
      refers (st_oracles st) (c_id c) (c_id c') (length (c_point c')) -> claim_true V c' ->
      can (verify_multilinear u32 (verify_skip u32 fuel) c' st) (post st V (composites (st_oracles st) fuel (c_id c')))).
    { intros c' Hc (Hlt & oi & Ei & En) T'. apply (multilinear_complete fuel (c_id c)); auto; [split; auto|]. exists oi. auto. }
    assert (BIV : forall os' ext m d k, os' = st_oracles st ++ ext -> provable os' -> reduction L (st_oracles st) (c_id c) p os' m d ->
      post st V k (set_sums (add_bivariate_sumcheck m (st_sums st) d (c_eval c)) (set_oracles os' st))).
    { intros os' ext m d k Ext PO R. destruct (bivariate_state L st (c_id c) p os' m d (c_eval c) K (ex_intro _ _ Ext) R) as [K' B].
      split; [cbn [set_sums set_oracles st_mles]; lia|].
      destruct (consistent_extends L ext (st_oracles st) V V) as (V' & C' & A & _); [rewrite <- Ext; apply R|auto|].
      rewrite <- Ext in C'. exists V'. split; auto. split; [eexists; exact Ext|]. split; auto. split; auto. split; auto.
      intros O. apply (B V' C'). split; [now apply (obligations_agree st V)|].
      rewrite A by (apply nth_error_Some; congruence). exact T. }
    destruct (o_variant o) as [|poly|circ|i k|i vs s|i off b sv|i d|m off inner|i pad nz s|m ids circ] eqn:EV;
      cbn [verify_variant variant_ok] in *; fold p.
    - (* Committed *)
      apply can_ret. split; [cbn [push_committed st_mles]; lia|]. exists V. split.
      { destruct K as (H1 & H2 & H3 & H4). split; [exact H1|]. split; [exact H2|]. split; [exact H3|].
        intros c' HI. cbn [push_committed st_committed] in HI. apply in_app_iff in HI. destruct HI as [HI|[<-|[]]]; [now apply H4|].
        exists o. auto. }
      split; [exists []; now rewrite app_nil_r|]. split; auto. split; auto. split; auto.
      intros (B1 & B2 & B3). split; [|split; assumption]. intros c' HI. apply in_app_iff in HI.
      destruct HI as [HI|[<-|[]]]; auto.
    - (* Transparent *)
      destruct (transparent_value L _ _ _ p (proj1 K) E HP _ EV) as (t & -> & HT). cbn [vbind].
      rewrite <- T, (HT V C), feqb_refl. now apply can_ret.
    - (* Structured *)
      destruct (structured_value L _ _ _ p (proj1 K) E HP _ EV) as (Hn & t & HE & HT). rewrite (proj2 (Nat.ltb_ge _ _)), HE by auto.
      rewrite <- T, (HT V C), feqb_refl. now apply can_ret.
    - (* Repeating *)
      destruct HO as [Hk HR]. rewrite (proj2 (Nat.ltb_ge _ _)) by lia.
      apply (RED (mkClaim i (firstn (length p - k) p) (c_eval c))); auto.
      + cbn [c_id c_point]. rewrite firstn_length; replace (Nat.min _ _) with (o_nvars o - k)%nat by lia; exact HR.
      + unfold claim_true. cbn [c_id c_point c_eval]. now rewrite <- (repeating_value L _ V (c_id c) o p E HP C i k EV).
    - (* Projected *)
      destruct HO as [Hs HR]. rewrite (proj2 (Nat.ltb_ge _ _)) by lia.
      apply (RED (mkClaim i (firstn s p ++ vs ++ skipn s p) (c_eval c))); auto.
      + cbn [c_id c_point]. rewrite !app_length, firstn_length, skipn_length.
        replace (Nat.min s (length p) + (length vs + (length p - s)))%nat with (o_nvars o + length vs)%nat by lia. exact HR.
      + unfold claim_true. cbn [c_id c_point c_eval]. now rewrite <- (projected_value L _ V (c_id c) o p (proj1 K) E HP C i vs s EV).
    - (* Shifted *)
      destruct (shifted_reduces L _ _ _ p i off b sv (proj1 K) E HP EV) as (oi & q & m & -> & _ & R). cbn [vbind fst snd].
      apply can_ret. eapply BIV; [reflexivity| |exact R]. apply meta_ext_provable; auto. apply K.
    - (* Packed *)
      destruct (packed_reduces L _ _ _ p i d (proj1 K) E HP EV) as (oi & Ei & [[Hl _]|(Hl & q & m & -> & R)]).
      { specialize (PV oi Ei). lia. }
      cbn [vbind fst snd]. apply can_ret. eapply BIV; [reflexivity| |exact R]. apply meta_ext_provable; auto. apply K.
    - (* LinearCombination *)
      destruct HO as [Hm HR].
      assert (CE : count fuel (st_oracles st) (map fst inner) =
        fold_right (fun ic acc => composites (st_oracles st) fuel (fst ic) + acc)%nat 0%nat inner).
      { clear. induction inner as [|[i a] inner IH]; cbn [map count fold_right fst]; auto. }
      eapply can_bind.
      + apply (subclaims_complete fuel (c_id c)) with (V := V); auto; [lia|]. intros id HI. apply in_map_iff in HI. destruct HI as ([i a] & <- & HI).
        destruct (HR i a HI) as (Hlt & oi & Ei & En). cbn [fst]. split; auto. exists oi. split; auto. congruence.
      + intros [evals st'] (HE & HPost). cbn [fst snd] in *.
        rewrite <- (combination_value L _ V (c_id c) o p E HP C m off inner evals EV), T, feqb_refl.
        * apply can_ret. now rewrite <- CE.
        * rewrite HE. clear. induction (map fst inner); constructor; auto.
    - (* ZeroPadded *)
      destruct HO as [Hs HR]. rewrite (proj2 (Nat.ltb_ge _ _)) by lia.
      assert (ML := padded_value L _ V (c_id c) o p (proj1 K) E HP C i pad nz s EV).
      set (zs := firstn pad (skipn s p)) in *. assert (LZ : length zs = pad) by (unfold zs; rewrite firstn_length, skipn_length; lia).
      rewrite LZ, select_row_new_spec. destruct (Nat.ltb_spec nz (2 ^ pad)) as [Hz|Hz]; [|lia]. cbn [vbind].
      destruct (select_row_correct F pad nz Hz) as [_ HE]. rewrite HE, LZ, Nat.eqb_refl.
      set (t := mle (fun x => if (x =? nz)%nat then 1 else 0) zs) in *.
      destruct (feqb_spec F t 0) as [T0|T0].
      + rewrite <- T, ML, T0. replace (0 * mle (V i) (firstn s p ++ skipn (s + pad) p)) with (0 : F) by ring. rewrite feqb_refl. now apply can_ret.
      + apply (RED (mkClaim i (firstn s p ++ skipn (s + pad) p) (c_eval c * finv t))); auto.
        * cbn [c_id c_point]. rewrite app_length, firstn_length, skipn_length.
          replace (Nat.min s (length p) + (length p - (s + pad)))%nat with (o_nvars o - pad)%nat by lia. exact HR.
        * unfold claim_true. cbn [c_id c_point c_eval]. rewrite <- T, ML.
          transitivity (finv t * t * mle (V i) (firstn s p ++ skipn (s + pad) p)); [|ring]. rewrite f_inv_l by auto. ring.
    - (* Composite *)
      destruct (first_match (st_mles st) p) as (pos & Hpos & HQ). apply (can_u32 pos); [lia|].
      destruct (composite_state L st (c_id c) o p m ids circ pos (c_eval c) K E HP EV HQ) as [K' B].
      assert (G : post st V 1 (set_mles (add_composite_sumcheck pos p (st_mles st) ids circ (c_eval c)) st)).
      { split.
        - cbn [set_mles st_mles]. unfold add_composite_sumcheck. destruct (nth_error (st_mles st) pos) as [[q b]|];
            [rewrite upd_length|rewrite app_length; cbn [length]]; lia.
        - exists V. split; auto. split; [exists []; now rewrite app_nil_r|]. split; auto. split; auto. split; auto.
          intros O. apply (B V C). auto. }
      destruct (nth_error (st_mles st) pos) as [[q b]|] eqn:EQ.
      + rewrite (HQ q b eq_refl). rewrite (proj2 (point_eqb_eq L p p) eq_refl). cbn [negb]. now apply can_ret.
      + now apply can_ret.
  Qed.

  Lemma skip_complete fuel : forall c st V, (c_id c < fuel)%nat -> ready fuel st V (c_id c) -> claim_sized (st_oracles st) c ->
    claim_true V c -> can (verify_skip u32 fuel c st) (post st V (composites (st_oracles st) fuel (c_id c))).
  Proof.
    induction fuel as [|fuel IH]; intros c st V Hc HR (o & E & HP) T; [lia|].
    set (st1 := set_round (st_round st ++ [c]) st). assert (X := variant_complete fuel c st1 V o). cbn [verify_skip]. fold st1.
    rewrite (oget_ok L _ _ _ E : oget (st_oracles st1) (c_id c) = Ok o). cbn [vbind]. apply X; auto.
    intros c' st' V' H1. apply IH. lia.
  Qed.

  Definition total (os : oset L) (claims : list (claim L)) : nat :=
    fold_right (fun c acc => composites os (S (c_id c)) (c_id c) + acc)%nat 0%nat claims.

  Lemma total_app (os ext : oset L) claims : oset_ok os -> (forall c, In c claims -> claim_sized os c) ->
    total (os ++ ext) claims = total os claims.
  Proof.
    intros HO. induction claims as [|c claims IH]; intros H; cbn [total fold_right] in *; auto.
    unfold total in IH. rewrite IH by (intros; apply H; now right). rewrite composites_app; auto.
    destruct (H c (or_introl eq_refl)) as (o & Eo & _). apply nth_error_Some. congruence.
  Qed.

  Lemma loop_complete claims : forall st V, vstate_ok st -> provable (st_oracles st) -> consistent (st_oracles st) V ->
    (length (st_mles st) + total (st_oracles st) claims < M)%nat ->
    (forall c, In c claims -> claim_sized (st_oracles st) c /\ claim_true V c) ->
    can (verify_loop u32 claims st) (post st V (total (st_oracles st) claims)).
  Proof.
    induction claims as [|c claims IH]; intros st V K P C HC HI; cbn [verify_loop].
    - apply can_ret. split; [lia|]. exists V. now apply extends_refl.
    - cbn [total fold_right] in *. fold (total (st_oracles st) claims) in *. destruct (HI c (or_introl eq_refl)) as [Hz Ht].
      eapply can_bind.
      + apply (multilinear_complete (S (c_id c)) (S (c_id c))) with (V := V); auto.
        * intros c' st' V' H1. now apply skip_complete.
        * split; auto. split; auto. split; auto. lia.
      + intros st1 (HL & V1 & X1). assert (X1' := X1). destruct X1' as (K1 & [ext E1] & P1 & C1 & A1 & O1).
        assert (CE : total (st_oracles st1) claims = total (st_oracles st) claims).
        { rewrite E1. apply total_app; [apply K|]. intros c' Hc'. now apply HI; right. }
        eapply can_mono; [apply (IH st1 V1 K1 P1 C1); [lia|]|].
        * intros c' Hc'. destruct (HI c' (or_intror Hc')) as [Z T]. split; [rewrite E1; now apply sized_grow|].
          unfold claim_true. destruct Z as (o & Eo & _). rewrite A1; auto. apply nth_error_Some. congruence.
        * intros st2 (HL2 & V2 & X2). split; [lia|]. exists V2. now apply (extends_trans st V st1 V1).
  Qed.

  (** C44: true claims are accepted for some proof, whatever follows it on the tape; the state after
      it records nothing false. *)
  Theorem evalcheck_complete (claims : list (claim L)) (st : vstate L) (V : values L) :
    vstate_ok st -> provable (st_oracles st) -> consistent (st_oracles st) V -> obligations V st ->
    (length (st_mles st) + total (st_oracles st) claims < M)%nat ->
    (forall c, In c claims -> claim_sized (st_oracles st) c /\ claim_true V c) ->
    exists tape st' V',
      (forall rest cs, vrun (verify u32 claims st) (tape ++ rest) cs = Ok (st', rest, cs)) /\
      vstate_ok st' /\ (exists new, st_oracles st' = st_oracles st ++ new) /\ consistent (st_oracles st') V' /\
      (forall i, (i < length (st_oracles st))%nat -> V' i = V i) /\ obligations V' st'.
  Proof.
    intros K P C O HC HI. destruct (loop_complete claims (set_round [] st) V K P C HC HI) as (t & st' & HA & _ & V' & X).
    exists t, st', V'. split; [now apply accepts_run|]. destruct X as (K' & E' & P' & C' & A' & O'). auto 10.
  Qed.
End Complete.
