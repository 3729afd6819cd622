(** C74: the oracles that the product phase adds, and the evaluation claims it leaves. *)
Require Import Coq.Arith.Arith Coq.Lists.List Coq.Bool.Bool Coq.Sorting.Sorted Coq.Sorting.Permutation Lia.
From Verif Require Import Base.Fld Base.Lists Base.Sums Math.MleSpec Math.ArithModel Math.ArithProofs Math.ArithProps Field.TowerProofs
  Transparent.TransparentModel Protocol.Proto Protocol.Soundness Sumcheck.SumcheckModel Sumcheck.EqIndProps Gkr.GpaModel Gkr.GpaProps
  RingSwitch.SwitchSound Utils.SortModel Utils.SortProps
  Cs.ChannelModel Cs.ChannelProps Cs.FlushModel Cs.FlushProofs Cs.FlushProps Cs.FlushShape
  Evalcheck.OracleModel Evalcheck.EvalModel Evalcheck.EvalSpec Evalcheck.EvalProofs Evalcheck.EvalExtend Evalcheck.OracleProps
  Evalcheck.GreedyModel Evalcheck.GreedyWork Evalcheck.GreedySets Evalcheck.GreedyStages Cs.VerifyModel.
Import ListNotations.

Section Shape.
  Variable L D : nat.
  Notation F := (TF L).
  Local Open Scope fld_scope.

  Lemma combine_fst_all {A B} (a : list A) : forall b : list B, length a = length b -> map fst (combine a b) = a.
  Proof. induction a as [|x a IH]; intros [|y b] H; cbn in H; try lia; [reflexivity|]. cbn [combine map fst]. f_equal. apply IH. lia. Qed.
  Lemma composable_le d (c : circuit F) : (d <= D)%nat -> composable d c -> composable D c.
  Proof. intros H C pos n k k' E1 E2. destruct (C pos n k k' E1 E2). split; auto. lia. Qed.

  (** The oracle of a flush refers to its selectors and columns only. *)
  Definition refers_to (f : flush F) (o : oracle L) : Prop :=
    (exists n off inner, o_variant o = LinearCombination n off inner /\ map fst inner = oracle_ids F (fl_oracles F f)) \/
    (exists n c, o_variant o = Composite n (fl_selectors F f ++ oracle_ids F (fl_oracles F f)) c /\ composable D c).

  Lemma flush_oracle_shape (s r : F) os m f os' powers' id : (length (fl_selectors F f) + 1 <= D)%nat ->
    make_flush_oracle s r (os, map (fpow s) (seq 0 (S m))) f = Ok (os', powers', id) ->
    exists o, os' = os ++ [Some o] /\ id = length os /\ refers_to f o.
  Proof.
    intros HD. unfold make_flush_oracle. destruct (oracle_ids F (fl_oracles F f)) as [|first rest] eqn:EI; [discriminate|].
    unfold n_vars_of. destruct (oget os first) as [o1| |] eqn:E1; cbn [rbind]; try discriminate. set (n := o_nvars o1).
    destruct (check_levels os (fl_selectors F f)) as [[]| |]; cbn [rbind]; try discriminate.
    destruct (check_n_vars os n rest) as [[]| |] eqn:EC; cbn [rbind]; try discriminate.
    rewrite mixing_powers_spec. set (k := (S m + (length (fl_oracles F f) - S m))%nat). set (powers := map (fpow s) (seq 0 k)).
    assert (LP : (length (fl_oracles F f) <= length powers)%nat) by (unfold powers, k; rewrite map_length, seq_length; lia).
    assert (CI := column_part_ids L (fl_oracles F f) powers LP). set (cols := column_part (fl_oracles F f) powers) in *. set (consts := const_part (fl_oracles F f) powers).
    destruct (fl_selectors F f) as [|s0 sel] eqn:ES.
    - unfold add_linear_combination_with_offset. destruct (rmap _ cols) as [lv| |]; cbn [rbind]; try discriminate.
      destruct (check_n_vars os n (map fst cols)) as [[]| |]; cbn [rbind]; try discriminate. unfold add_to_set. cbn [fst snd]. intros [= <- <- <-].
      eexists. split; [reflexivity|]. split; [reflexivity|]. left. do 3 eexists. split; [reflexivity|]. congruence.
    - rewrite <- ES in *. unfold add_composite_mle. destruct (rmap (level_of os) _) as [lv| |]; cbn [rbind]; try discriminate.
      destruct (check_n_vars os n (fl_selectors F f ++ map fst cols)) as [[]| |]; cbn [rbind]; try discriminate.
      destruct (optimize false true _) as [e|] eqn:EO; cbn [rbind]; [|discriminate]. destruct (_ <? _)%nat; cbn [rbind]; [discriminate|]. unfold add_to_set. cbn [rbind fst snd]. intros [= <- <- <-].
      eexists. split; [reflexivity|]. split; [reflexivity|]. right. exists n, e. split; [cbn [o_variant]; now rewrite CI, EI|].
      apply (composable_le (length (fl_selectors F f) + 1)); [exact HD|]. eapply (flush_optimised_composable L); [|exact EO]. rewrite ES. cbn. lia.
  Qed.

  Definition made_for (os : oset L) (f : flush F) (id : nat) : Prop := exists o, present L os id o /\ refers_to f o.
  Lemma made_for_app os ext f id : made_for os f id -> made_for (os ++ ext) f id.
  Proof. intros (o & P & R). exists o. split; [now apply nth_error_grow|exact R]. Qed.

  Lemma composable_snoc (os : oset L) o : composable_set D os -> (forall m ids c, o_variant o = Composite m ids c -> composable D c) -> composable_set D (os ++ [Some o]).
  Proof.
    intros H HO id o' m ids c E EV. destruct (Nat.lt_ge_cases id (length os)) as [Hl|Hl].
    - rewrite nth_error_app1 in E by auto. eapply H; eauto.
    - rewrite nth_error_app2 in E by auto. apply nth_error_In in E as [[= <-]|[]]. eauto.
  Qed.
  Lemma refers_composable f o m ids c : refers_to f o -> o_variant o = Composite m ids c -> composable D c.
  Proof. intros [(n & off & inner & E & _)|(n & c' & E & H)] EV; rewrite E in EV; [discriminate|]. now injection EV as _ _ <-. Qed.
  Lemma refers_derived f o : refers_to f o -> o_variant o <> Committed.
  Proof. intros [(n & off & inner & E & _)|(n & c' & E & H)]; rewrite E; discriminate. Qed.
  Lemma derived_app (a b : oset L) : derived a -> derived b -> derived (a ++ b).
  Proof. intros A B o H. apply in_app_or in H as [H|H]; auto. Qed.

  (** new oracles, none of them committed *)
  Definition extends (os os' : oset L) : Prop := (exists ext, os' = os ++ ext /\ derived ext) /\ (composable_set D os -> composable_set D os').
  Lemma extends_refl os : extends os os.
  Proof. split; [exists []; split; [now rewrite app_nil_r|intros ? []]|auto]. Qed.
  Lemma extends_trans a b c : extends a b -> extends b c -> extends a c.
  Proof. intros [(e1 & -> & D1) C1] [(e2 & -> & D2) C2]. split; [exists (e1 ++ e2); split; [now rewrite app_assoc|now apply derived_app]|auto]. Qed.

  Lemma channel_shape (s r : F) fs : forall os m os' powers' ids, oset_ok os -> (forall f, In f fs -> (length (fl_selectors F f) + 1 <= D)%nat) ->
    make_channel s r (os, map (fpow s) (seq 0 (S m))) fs = Ok (os', powers', ids) -> extends os os' /\ Forall2 (made_for os') fs ids.
  Proof.
    induction fs as [|f fs IH]; intros os m os' powers' ids HO HD H; cbn [make_channel] in H.
    - injection H as <- <- <-. split; [apply extends_refl|constructor].
    - destruct (make_flush_oracle s r (os, map (fpow s) (seq 0 (S m))) f) as [[[os1 p1] id]| |] eqn:E1; cbn [rbind fst snd] in H; try discriminate.
      pose proof (make_flush_oracle_ok L s r os m f os1 p1 id HO E1) as (O1 & (m1 & ->) & _).
      apply flush_oracle_shape in E1; [|apply HD; now left]. destruct E1 as (o & -> & -> & R).
      destruct (make_channel s r _ fs) as [[[os2 p2] ids2]| |] eqn:E2; cbn [rbind fst snd] in H; try discriminate. injection H as <- <- <-.
      apply IH in E2; [|exact O1|intros; apply HD; now right]. destruct E2 as [X F2]. split.
      + apply (extends_trans os (os ++ [Some o])); [|exact X]. split.
        * exists [Some o]. split; [reflexivity|]. intros o' [[= <-]|[]]. now apply (refers_derived f).
        * intros C. apply composable_snoc; [exact C|]. intros. now apply (refers_composable f o m0 ids).
      + constructor; [|exact F2]. destruct X as [(e & -> & _) _]. apply made_for_app. exists o. split; [apply nth_error_last|exact R].
  Qed.

  Lemma oracles_shape (s : F) perms : forall c fs os m os' ids, oset_ok os -> (forall f, In f fs -> (length (fl_selectors F f) + 1 <= D)%nat) ->
    make_flush_oracles s perms c (os, map (fpow s) (seq 0 (S m))) fs = Ok (os', ids) ->
    extends os os' /\ exists fs1 fs2, fs = fs1 ++ fs2 /\ Forall2 (made_for os') fs1 ids.
  Proof.
    induction perms as [|r perms IH]; intros c fs os m os' ids HO HD H; cbn [make_flush_oracles] in H.
    - injection H as <- <-. split; [apply extends_refl|]. exists [], fs. split; [reflexivity|constructor].
    - pose proof (take_channel_spec (fl_channel F) c fs) as TS. destruct (take_channel (fl_channel F) c fs) as [mine others]. destruct TS as [-> _].
      destruct (make_channel s r _ mine) as [[[os1 p1] ids1]| |] eqn:E1; cbn [rbind fst snd] in H; try discriminate.
      pose proof (make_channel_ok L s r mine os m os1 p1 ids1 HO E1) as (O1 & (m1 & ->) & _).
      apply channel_shape in E1; [|exact HO|intros; apply HD, in_or_app; now left]. destruct E1 as [X1 F1].
      destruct (make_flush_oracles s perms _ _ others) as [[os2 ids2]| |] eqn:E2; cbn [rbind fst snd] in H; try discriminate. injection H as <- <-.
      apply IH in E2; [|exact O1|intros; apply HD, in_or_app; now right]. destruct E2 as [X2 (fs1 & fs2 & -> & F2)].
      split; [now apply (extends_trans os os1)|]. exists (mine ++ fs1), fs2. split; [now rewrite app_assoc|]. apply Forall2_app; [|exact F2].
      destruct X2 as [(e & -> & _) _]. eapply FlushProofs.Forall2_weaken; [|exact F1]. intros f id _ H. now apply made_for_app.
  Qed.

  (** * Selectors for tables of arbitrary size *)
  Definition transparent (os : oset L) (id : nat) : Prop := exists o p, present L os id o /\ o_variant o = Transparent p.
  Lemma transparent_app os ext id : transparent os id -> transparent (os ++ ext) id.
  Proof. intros (o & p & P & E). exists o, p. split; [now apply nth_error_grow|exact E]. Qed.
  Definition all_transparent (os : oset L) (m : sd_map) : Prop := forall t lv id, sd_find t lv m = Some id -> transparent os id.

  Lemma create_shape specs sizes os m f os' m' : all_transparent os m -> create_step_down specs sizes (os, m) f = Ok (os', m') -> extends os os' /\ all_transparent os' m'.
  Proof.
    intros HM. unfold create_step_down. destruct (nth_error sizes _) as [size|]; cbn [of_opt rbind]; [|discriminate].
    destruct (nth_error specs _) as [spec|]; cbn [of_opt rbind]; [|discriminate].
    assert (SAME : Ok (os, m) = Ok (os', m') -> extends os os' /\ all_transparent os' m') by (intros [= <- <-]; split; [apply extends_refl|exact HM]).
    destruct spec; auto. cbn [fst snd]. destruct (sd_find _ _ m); auto.
    destruct (step_new _ _) as [sp| |]; cbn [rbind]; try discriminate. unfold add_transparent, add_to_set. destruct (L <? 0)%nat; cbn [rbind fst snd]; [discriminate|].
    set (o := mkOracle _ _ (Transparent _)). intros [= <- <-]. split.
    - split; [exists [Some o]; split; [reflexivity|intros o' [[= <-]|[]]; discriminate]|]. intros C. apply composable_snoc; [exact C|]. discriminate.
    - intros t lv id. cbn [sd_find]. destruct (_ && _); [intros [= <-]; exists o; eexists; split; [apply nth_error_last|reflexivity]|]. intros E. apply transparent_app. now apply (HM t lv).
  Qed.
  Lemma create_all_shape specs sizes fs : forall os m os' m', all_transparent os m -> fold_r (create_step_down specs sizes) fs (os, m) = Ok (os', m') ->
    extends os os' /\ all_transparent os' m'.
  Proof.
    induction fs as [|f fs IH]; intros os m os' m' HM H; cbn [fold_r] in H; [injection H as <- <-; split; [apply extends_refl|exact HM]|].
    destruct (create_step_down specs sizes (os, m) f) as [[os1 m1]| |] eqn:E1; cbn [rbind] in H; try discriminate.
    apply create_shape in E1 as [X1 M1]; auto. apply IH in H as [X2 M2]; auto. split; [now apply (extends_trans os os1)|exact M2].
  Qed.

  (** [f'] is [f], perhaps with one more selector, which is transparent *)
  Definition one_more (os : oset L) (f f' : flush F) : Prop := f' = f \/ exists id, f' = add_selector f id /\ transparent os id.
  Lemma augment_shape os fs specs sizes os' fs' : augment_flush_po2_step_down os fs specs sizes = Ok (os', fs') -> extends os os' /\ Forall2 (one_more os') fs fs'.
  Proof.
    unfold augment_flush_po2_step_down. destruct (fold_r (create_step_down specs sizes) fs (os, [])) as [[os1 m1]| |] eqn:E1; cbn [rbind fst snd]; try discriminate.
    destruct (rmap (push_step_down specs m1) fs) as [fs1| |] eqn:E2; cbn [rbind]; try discriminate. intros [= <- <-].
    apply create_all_shape in E1 as [X M]; [|intros t lv id; discriminate]. split; [exact X|]. apply rmap_inv in E2. eapply FlushProofs.Forall2_weaken; [|exact E2].
    intros f f' _ EP. unfold push_step_down in EP. destruct (nth_error specs _) as [spec|]; cbn [of_opt rbind] in EP; [|discriminate].
    destruct spec; try (left; congruence). destruct (sd_find _ _ m1) as [id|] eqn:EF; [|left; congruence]. injection EP as <-. right. exists id. split; [reflexivity|eauto].
  Qed.

  (** * The phase *)
  Section Phase.
    Variable os : oset L.
    Variable V : values L.
    Variable flushes : list (flush F).
    Variable non_zero : list nat.
    Variable specs : list size_spec.
    Variable sizes : list nat.
    Variable bs : list (boundary F).

    (** the error spent on a claim about the oracle of a flush *)
    Definition flush_work (f : flush F) : nat :=
      (1 + flush_vars L sizes f * (D + 1) + ids_work D os (fl_selectors F f ++ oracle_ids F (fl_oracles F f)))%nat.
    Definition flushes_work : nat := list_sum (map flush_work (filter (nonempty L sizes) flushes)).

    Definition reducible (os : oset L) (id : nat) : Prop :=
      exists o, present L os id o /\ ((exists n off inner, o_variant o = LinearCombination n off inner) \/ exists n inner c, o_variant o = Composite n inner c).

    Definition phase_shape (out : oset L * list (nat * list F * F)) : Prop :=
      extends os (fst out) /\ oset_ok (fst out) /\
      (forall c, In c (snd out) -> claim_sized (fst out) (eval_claim L c)) /\
      exists ids, map (fun c => fst (fst c)) (snd out) = ids ++ non_zero /\ (forall id, In id ids -> reducible (fst out) id) /\
        (ids_work D (fst out) ids <= flushes_work)%nat.

    Lemma list_sum_perm (a b : list nat) : Permutation a b -> list_sum a = list_sum b.
    Proof. induction 1; auto; try (rewrite !list_sum_cons; lia). congruence. Qed.

    Lemma flush_oracle_work os1 os2 f f' id : oset_ok os2 -> extends os os1 -> extends os1 os2 -> sized_flush L os sizes f -> one_more os1 f f' -> made_for os2 f' id ->
      n_vars_or0 os2 id = flush_vars L sizes f -> (work D os2 id <= flush_work f)%nat.
    Proof.
      intros O2 [(e1 & -> & _) _] [(e2 & -> & _) _] (size & EZ & SZ) OM (o & P & R) NV.
      rewrite (work_step L D _ _ _ O2 P). unfold n_vars_or0, oget in NV. unfold present in P. rewrite P in NV. unfold flush_work. rewrite <- NV.
      assert (KEEP : forall i, In i (oracle_ids F (fl_oracles F f) ++ fl_selectors F f) -> work D ((os ++ e1) ++ e2) i = work D os i).
      { intros i Hi. destruct (SZ i Hi) as (oi & Pi & _). assert (i < length os)%nat by (apply nth_error_Some; unfold present in Pi; congruence).
        rewrite work_app by (rewrite app_length; lia). now apply work_app. }
      assert (COLS : ids_work D ((os ++ e1) ++ e2) (oracle_ids F (fl_oracles F f)) = ids_work D os (oracle_ids F (fl_oracles F f))).
      { apply sum_ext. intros i Hi. apply KEEP, in_or_app. now left. }
      assert (SELS : ids_work D ((os ++ e1) ++ e2) (fl_selectors F f) = ids_work D os (fl_selectors F f)).
      { apply sum_ext. intros i Hi. apply KEEP, in_or_app. now right. }
      assert (SO : fl_oracles F f' = fl_oracles F f) by (destruct OM as [->|(i & -> & _)]; reflexivity).
      assert (SW : ids_work D ((os ++ e1) ++ e2) (fl_selectors F f') = ids_work D os (fl_selectors F f)).
      { destruct OM as [->|(i & -> & TR)]; [exact SELS|]. cbn [add_selector fl_selectors]. unfold ids_work in *. rewrite map_app, list_sum_app, SELS.
        cbn [map]. rewrite list_sum_cons. cbn [list_sum fold_right]. apply (transparent_app _ e2) in TR. destruct TR as (ot & p & Pt & Et).
        rewrite (work_step L D _ _ _ O2 Pt). unfold step_work. rewrite Et. lia. }
      unfold ids_work in *. rewrite map_app, list_sum_app. destruct R as [(n & off & inner & E & EI)|(n & c & E & _)]; unfold step_work; rewrite E.
      - rewrite SO in EI. rewrite <- EI, map_map in COLS. rewrite COLS. rewrite <- EI, map_map. lia.
      - rewrite map_app, list_sum_app, SW, SO, COLS. lia.
    Qed.

    Hypothesis HOK : phase_ok L os V flushes specs sizes.
    Hypothesis HD : forall f, In f flushes -> nonempty L sizes f = true -> (length (fl_selectors F f) + 2 <= D)%nat.

    Lemma phase_shape_ok channel_count : sound phase_shape 0 (product_phase os flushes non_zero specs sizes channel_count bs).
    Proof.
      destruct HOK as (HO & HV & HT & HS & HB). unfold product_phase. apply sound_bind_read. intros nzp _. destruct (existsb _ nzp); [constructor|].
      apply sound_bind0. intros nz_claims HN. apply (sound_bind F (fun _ => True) _ 0 0); [apply sound_any|]. intros s _.
      apply (sound_bind F (fun _ => True) _ 0 0); [apply sound_any|]. intros perms _.
      apply sound_bind0. intros fs EP. apply sound_bind0. intros [os1 fs'] EA. apply sound_bind0. intros [os2 ids] EM. cbn [fst snd].
      apply sound_bind_read. intros products LP. apply sound_bind0. intros [] EB. apply sound_bind0. intros claims ECL. cbn [fst snd].
      apply prepare_ok in EP. destruct EP as [PERM _]. pose proof (augment_shape _ _ _ _ _ _ EA) as [X1 OM]. apply augment_ok in EA; [|exact HO]. destruct EA as [O1 [_ AU]].
      assert (IF : forall f, In f fs -> In f flushes /\ nonempty L sizes f = true) by (intros f Hf; apply (Permutation_in _ PERM) in Hf; now apply filter_In in Hf).
      assert (SEL : forall f', In f' fs' -> (length (fl_selectors F f') + 1 <= D)%nat).
      { clear - OM IF HD. induction OM as [|f f' fs fs' O OM IH]; intros g Hg; [destruct Hg|]. destruct Hg as [<-|Hg]; [|apply IH; auto; intros; apply IF; now right].
        destruct (IF f (or_introl eq_refl)) as [I1 I2]. specialize (HD f I1 I2). destruct O as [->|(i & -> & _)]; [lia|]. cbn [add_selector fl_selectors]. rewrite app_length. cbn. lia. }
      change [1] with (map (fpow s) (seq 0 1)) in EM. pose proof (oracles_shape s perms 0 fs' os1 0 os2 ids O1 SEL EM) as [X2 (fc & fd & EF' & MF)].
      apply (make_flush_oracles_ok L s perms [] fs' os1 0 os2 ids O1) in EM. cbn [app] in EM. destruct EM as [O2 [_ [fa [fb [EF MD]]]]].
      assert (FB : fb = [] /\ fd = []).
      { unfold verify_channels_balance in EB. destruct (Nat.eqb_spec (length products) (length fs')) as [E|E]; cbn [negb] in EB; [|discriminate]. apply forall2_len in MD. apply forall2_len in MF.
        rewrite EF, app_length in E. assert (LL : length (fc ++ fd) = length (fa ++ fb)) by congruence. rewrite !app_length in LL. split; [destruct fb; [reflexivity|cbn in E; lia]|destruct fd; [reflexivity|cbn in *; lia]]. }
      destruct FB as [-> ->]. rewrite app_nil_r in EF, EF'. subst fa fc.
      assert (FACT : Forall2 (fun f id => (work D os2 id <= flush_work f)%nat /\ reducible os2 id) fs ids).
      { destruct X1 as [(e1 & E1 & D1) C1]. destruct X2 as [(e2 & E2 & D2) C2]. clear EB LP ECL SEL PERM. revert ids MD MF.
        revert OM IF. induction AU as [|f f' fs fs' A1 AU IH]; intros OM IF ids MD MF; inversion MD as [|? id ? ids' M1 MD']; subst; [constructor|].
        inversion MF; subst. inversion OM; subst. constructor; [|apply IH; auto; intros; apply IF; now right].
        destruct (IF f (or_introl eq_refl)) as [I1 I2]. split.
        - eapply (flush_oracle_work (os ++ e1) ((os ++ e1) ++ e2)); eauto; [split; eauto|split; eauto|].
          destruct (oracle_is_table L os V specs sizes _ e1 _ e2 s perms f f' id HT eq_refl eq_refl (HS f I1 I2) ltac:(intros x Hx i Hi; apply (HB f i x); auto) A1 M1) as (_ & _ & _ & R4 & _). exact R4.
        - match goal with H : made_for _ f' id |- _ => destruct H as (o & P & R) end. exists o. split; [exact P|].
          destruct R as [(n & off & inner & E & _)|(n & c & E & _)]; [left|right]; eauto. }
      apply product_claims_inv in ECL. destruct ECL as [L1 [-> P1]]. apply product_claims_inv in HN. destruct HN as [L2 [-> PN]].
      set (insts := map (fun ip : nat * F => ((n_vars_or0 os2 (fst ip), snd ip), (fun _ : nat => 0 : F))) (combine ids products ++ combine non_zero nzp)).
      assert (EXT : exists ext, os2 = os ++ ext).
      { destruct X1 as [(e1 & E1 & _) _]. destruct X2 as [(e2 & E2 & _) _]. exists (e1 ++ e2). now rewrite app_assoc, <- E1. }
      assert (PN2 : forall id, In id non_zero -> (exists oi, present L os2 id oi) /\ n_vars_or0 os2 id = n_vars_or0 os id).
      { intros id Hi. destruct (PN id Hi) as [oi Pi]. destruct EXT as [ext ->]. assert (P2 : present L (os ++ ext) id oi) by now apply nth_error_grow. split; [eauto|].
        unfold n_vars_or0, oget. unfold present in *. now rewrite Pi, P2. }
      assert (EI : map (fun ip : nat * F => (n_vars_or0 os2 (fst ip), snd ip)) (combine ids products) ++ map (fun ip : nat * F => (n_vars_or0 os (fst ip), snd ip)) (combine non_zero nzp) = map fst insts).
      { unfold insts. rewrite map_map, map_app. f_equal. apply map_ext_in. intros [i p] Hi. cbn [fst snd]. f_equal. symmetry. apply PN2. now apply in_combine_l in Hi. }
      rewrite EI. eapply (sound_bind F _ _ 0 0); [apply returns_sound, gpa_verify_returns|]. intros fin SF. cbn beta in SF.
      apply sound_bind0. intros ecs EE. constructor. unfold GpaModel.make_eval_claims in EE. destruct (_ =? length fin)%nat eqn:ELF; cbn [negb] in EE; [|discriminate]. injection EE as <-. apply Nat.eqb_eq in ELF.
      assert (IDS : map fst (combine ids products ++ combine non_zero nzp) = ids ++ non_zero).
      { rewrite map_app. f_equal; apply combine_fst_all; lia. }
      assert (PALL : forall id, In id (ids ++ non_zero) -> exists oi, present L os2 id oi).
      { intros id Hi. apply in_app_or in Hi as [Hi|Hi]; [now apply P1|now apply PN2]. }
      split; [cbn [fst]; now apply (extends_trans os os1)|]. split; [exact O2|]. cbn [fst snd]. split.
      - intros c Hc. apply in_map_iff in Hc as ((id, fc) & <- & Hc). cbn [fst snd]. unfold claim_sized, eval_claim. cbn [c_id c_point fst snd].
        destruct (PALL id) as [oi Pi]; [now apply in_combine_l in Hc|]. exists oi. split; [exact Pi|].
        rewrite <- IDS in Hc. unfold insts in SF.
        assert (G : forall (l : list (nat * F)) fin, Forall2 final_shape (map (fun ip : nat * F => ((n_vars_or0 os2 (fst ip), snd ip), (fun _ : nat => 0 : F))) l) fin ->
          In (id, fc) (combine (map fst l) fin) -> length (fst fc) = n_vars_or0 os2 id).
        { clear. induction l as [|[i p] l IH]; intros fin S HI; inversion S; subst; [destruct HI|]. cbn [map combine fst] in HI. destruct HI as [[= -> ->]|HI]; [|eauto].
          match goal with H : final_shape _ _ |- _ => exact H end. }
        rewrite (G _ _ SF Hc). unfold n_vars_or0, oget. unfold present in Pi. now rewrite Pi.
      - exists ids. split; [|split].
        + rewrite map_map. cbn [fst]. apply combine_fst_all. exact ELF.
        + intros id Hi. clear - FACT Hi. induction FACT as [|f i fs ids [_ R] _ IH]; [destruct Hi|]. destruct Hi as [<-|Hi]; auto.
        + unfold flushes_work. rewrite <- (list_sum_perm _ _ (Permutation_map flush_work PERM)). unfold ids_work. clear - FACT.
          induction FACT as [|f i fs ids [W _] _ IH]; [cbn; lia|]. cbn [map]. rewrite !list_sum_cons. lia.
    Qed.
  End Phase.
End Shape.
