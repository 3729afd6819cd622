(** C71: the product phase of the constraint-system verifier accepts an unbalanced channel, or a column that should not
    vanish and does, only with small probability; balanced channels always pass. *)
Require Import Coq.ZArith.ZArith Coq.Arith.Arith Coq.Lists.List Coq.Bool.Bool Coq.Sorting.Sorted Coq.Sorting.Permutation Lia.
From Verif Require Import Base.Fld Base.Lists Base.Sums Base.Poly Math.MleSpec Field.TowerProofs Field.Examples
  Transparent.TransparentModel Protocol.Proto Protocol.Soundness Sumcheck.SumcheckModel Sumcheck.EqIndProps Sumcheck.ZerocheckModel Sumcheck.ZerocheckProps Sumcheck.SumcheckProps
  RingSwitch.SwitchSound Gkr.GpaModel Gkr.GpaProps Utils.SortModel Utils.SortProps Compute.KernelProps
  Cs.ChannelModel Cs.ChannelProps Cs.BalanceAlg Cs.FlushModel Cs.FlushProofs
  Evalcheck.OracleModel Evalcheck.EvalSpec Evalcheck.EvalProofs Evalcheck.EvalExtend Evalcheck.OracleProps.
Import ListNotations.

Section Props.
  Variable L : nat.
  Notation F := (TF L).
  Local Open Scope fld_scope.
  Add Ring Fring : (f_ring F).
  Notation be := (boundary_event F).

  (* ---------------------------------------------------------------- *)
  (** * Products of tables *)

  Lemma prodn_rows (rows : nat) (sel : nat -> bool) (g : nat -> F) n : (rows <= n)%nat ->
    prodn n (fun x => if (x <? rows)%nat && sel x then g x else 1) = fprod (map g (filter sel (seq 0 rows))).
  Proof.
    intros H. replace n with (rows + (n - rows))%nat by lia. rewrite prodn_split.
    replace (prodn (n - rows) _) with (1 : F).
    - transitivity (prodn rows (fun x => if sel x then g x else 1)).
      + rewrite (prodn_ext F rows _ (fun x => if sel x then g x else 1)); [ring|]. intros i Hi. now rewrite (proj2 (Nat.ltb_lt i rows)).
      + unfold prodn. generalize (seq 0 rows). intros l. induction l as [|a l IH]; [reflexivity|]. cbn [map filter fprod]. destruct (sel a); cbn [map fprod]; rewrite IH; [reflexivity|ring].
    - symmetry. transitivity (prodn (n - rows) (fun _ => 1 : F)).
      + apply prodn_ext. intros i Hi. now rewrite (proj2 (Nat.ltb_ge (rows + i) rows)) by lia.
      + generalize (n - rows)%nat. intros k. induction k as [|k IH]; [reflexivity|]. rewrite prodn_S, IH. ring.
  Qed.

  Lemma fpow_fprod (l : list F) m : fpow (fprod l) m = fprod (map (fun x => fpow x m) l).
  Proof.
    induction l as [|x l IH]; cbn [map fprod].
    - induction m as [|m IH]; cbn [fpow]; [reflexivity|]. rewrite IH. ring.
    - rewrite fpow_mul_l, IH. reflexivity.
  Qed.

  Lemma rows_le sizes (f : flush F) : (flush_rows L sizes f <= 2 ^ flush_vars L sizes f)%nat.
  Proof. unfold flush_rows, flush_vars. rewrite Nat.pow_add_r. apply Nat.mul_le_mono_r, log2_ceil_le. Qed.

  Definition flush_total (w : witness F) (sizes : list nat) (s r : F) (f : flush F) : F := prodn (2 ^ flush_vars L sizes f) (flush_table L w sizes s r f).

  Lemma side_flush d c s r w sizes f : side F d c s r (flush_events F w sizes f) =
    if (fl_channel F f =? c)%nat && dir_eqb (fl_dir F f) d then pow64 (flush_total w sizes s r f) (fl_multiplicity F f) else 1.
  Proof.
    unfold flush_total, flush_table. rewrite (prodn_rows (flush_rows L sizes f) (selected F w f)) by apply rows_le.
    unfold pow64. rewrite fpow_fprod, map_map. unfold flush_events. fold (flush_rows L sizes f). generalize (filter (selected F w f) (seq 0 (flush_rows L sizes f))). intros l.
    destruct ((fl_channel F f =? c)%nat && dir_eqb (fl_dir F f) d) eqn:E.
    - induction l as [|i l IH]; [reflexivity|]. cbn [map fprod]. rewrite side_cons, IH. unfold on. cbn [ev_channel ev_dir]. rewrite E. reflexivity.
    - induction l as [|i l IH]; [reflexivity|]. cbn [map fprod]. rewrite side_cons, IH. unfold on. cbn [ev_channel ev_dir]. rewrite E. ring.
  Qed.

  Lemma side_perm d c s r a b : Permutation a b -> side F d c s r a = side F d c s r b.
  Proof. induction 1; rewrite ?side_cons; [reflexivity|now rewrite IHPermutation|ring|congruence]. Qed.

  (* ---------------------------------------------------------------- *)
  (** * Preparation of the flushes *)

  Definition nonempty (sizes : list nat) (f : flush F) : bool := (0 <? nth (fl_table F f) sizes 0)%nat.

  Lemma prepare_ok sizes fs0 fs : prepare_flushes sizes fs0 = Ok fs ->
    Permutation fs (filter (nonempty sizes) fs0) /\ StronglySorted le (map (fl_channel F) fs).
  Proof.
    unfold prepare_flushes. destruct (rmap _ fs0) as [keep| |] eqn:E; cbn [rbind]; try discriminate. intros [= <-].
    replace (map snd (filter fst (combine keep fs0))) with (filter (nonempty sizes) fs0).
    - split; [apply sort_perm|]. apply SortProps.sort_sorted with (key := fl_channel F); intros; try lia. apply Nat.leb_le.
    - revert keep E. induction fs0 as [|f fs0 IH]; intros keep E; cbn [rmap] in E; [injection E as <-; reflexivity|].
      destruct (nth_error sizes (fl_table F f)) as [n|] eqn:EN; cbn [of_opt rbind] in E; [|discriminate].
      destruct (rmap _ fs0) as [keep'| |] eqn:E2; cbn [rbind] in E; try discriminate. injection E as <-. cbn [combine filter fst].
      unfold nonempty at 1. rewrite (nth_error_nth _ _ _ EN). rewrite (IH keep' eq_refl). destruct (0 <? n)%nat; reflexivity.
  Qed.

  Lemma empty_events w sizes fs : forall d c s r, side F d c s r (flat_map (flush_events F w sizes) fs) = side F d c s r (flat_map (flush_events F w sizes) (filter (nonempty sizes) fs)).
  Proof.
    intros d c s r. induction fs as [|f fs IH]; [reflexivity|]. cbn [flat_map filter]. rewrite side_app, IH. destruct (nonempty sizes f) eqn:E; cbn [flat_map]; [now rewrite side_app|].
    unfold nonempty in E. apply Nat.ltb_ge in E. unfold flush_events at 1. replace (nth (fl_table F f) sizes 0%nat) with 0%nat by lia. cbn. unfold side. cbn. ring.
  Qed.
  Lemma perm_flat_map {A B} (g : A -> list B) a b : Permutation a b -> Permutation (flat_map g a) (flat_map g b).
  Proof.
    induction 1; cbn [flat_map]; [constructor|now apply Permutation_app_head| |etransitivity; eauto].
    rewrite !app_assoc. apply Permutation_app_tail, Permutation_app_comm.
  Qed.

  Lemma side_events d c s r w sizes flushes bs fs : Permutation fs (filter (nonempty sizes) flushes) ->
    side F d c s r (events F w sizes flushes bs) = side F d c s r (map be bs) * side F d c s r (flat_map (flush_events F w sizes) fs).
  Proof.
    intros P. unfold events. rewrite side_app, empty_events. f_equal. apply side_perm, perm_flat_map. now symmetry.
  Qed.

  (* ---------------------------------------------------------------- *)
  (** * The balance check *)

  Definition chal (perms : list F) (f : flush F) : F := nth (fl_channel F f) perms 0.
  Definition totals (w : witness F) (sizes : list nat) (s : F) (perms : list F) (fs : list (flush F)) : list F :=
    map (fun f => flush_total w sizes s (chal perms f) f) fs.
  Definition same_route (f f' : flush F) : Prop :=
    fl_channel F f' = fl_channel F f /\ fl_dir F f' = fl_dir F f /\ fl_multiplicity F f' = fl_multiplicity F f.

  Lemma sidef_totals d c s r perms w sizes fs fs' : nth_error perms c = Some r -> Forall2 same_route fs fs' ->
    sidef L d c (combine fs' (totals w sizes s perms fs)) = side F d c s r (flat_map (flush_events F w sizes) fs).
  Proof.
    intros ER. induction 1 as [|f f' fs fs' [E1 [E2 E3]] _ IH]; [reflexivity|]. cbn [totals map combine flat_map]. rewrite sidef_cons, side_app, side_flush. fold (totals w sizes s perms fs).
    rewrite IH. cbn [fst snd]. rewrite E1, E2, E3. f_equal. destruct (Nat.eqb_spec (fl_channel F f) c) as [EC|NC]; cbn [andb]; [|reflexivity].
    unfold chal. rewrite EC, (nth_error_nth _ _ _ ER). reflexivity.
  Qed.

  Lemma route_channels fs fs' : Forall2 same_route fs fs' -> map (fl_channel F) fs' = map (fl_channel F) fs.
  Proof. induction 1 as [|f f' fs fs' [E _] _ IH]; [reflexivity|]. cbn [map]. now rewrite E, IH. Qed.
  Lemma combine_fst_map {A B C} (g : A -> C) (l : list A) (m : list B) : length l = length m -> map (fun p => g (fst p)) (combine l m) = map g l.
  Proof. revert m. induction l as [|a l IH]; intros [|b m] H; cbn in H; try lia; [reflexivity|]. cbn [combine map fst]. f_equal. apply IH. lia. Qed.

  (** With the right products of the flushes the check compares, for every channel with a flush, what is pushed with what is pulled. *)
  Lemma balance_totals s perms bs w sizes fs fs' : Forall2 same_route fs fs' -> StronglySorted le (map (fl_channel F) fs) ->
    (forall f, In f fs -> (fl_channel F f < length perms)%nat) ->
    let ok := forall f, In f fs -> forall r, nth_error perms (fl_channel F f) = Some r ->
      side F Pull (fl_channel F f) s r (map be bs ++ flat_map (flush_events F w sizes) fs) = side F Push (fl_channel F f) s r (map be bs ++ flat_map (flush_events F w sizes) fs) in
    (verify_channels_balance fs' (totals w sizes s perms fs) bs s perms = Ok tt /\ ok) \/
    (verify_channels_balance fs' (totals w sizes s perms fs) bs s perms = Err /\ ~ ok).
  Proof.
    intros FR SS HP. cbn zeta. assert (LL : length fs' = length (totals w sizes s perms fs)) by (unfold totals; rewrite map_length; symmetry; now apply forall2_len in FR).
    unfold verify_channels_balance. rewrite <- LL, Nat.eqb_refl. cbn [negb].
    assert (IN : forall f, In f fs -> exists fp, In fp (combine fs' (totals w sizes s perms fs)) /\ fl_channel F (fst fp) = fl_channel F f).
    { intros f Hf. assert (IC : In (fl_channel F f) (map (fun fp : flush F * F => fl_channel F (fst fp)) (combine fs' (totals w sizes s perms fs)))).
      { rewrite (combine_fst_map (fl_channel F)) by exact LL. rewrite (route_channels fs fs' FR). now apply in_map. }
      apply in_map_iff in IC. destruct IC as [fp [E I]]. eauto. }
    assert (NI : forall fp, In fp (combine fs' (totals w sizes s perms fs)) -> exists f, In f fs /\ fl_channel F (fst fp) = fl_channel F f).
    { intros fp Hp. assert (IC : In (fl_channel F (fst fp)) (map (fl_channel F) fs)).
      { rewrite <- (route_channels fs fs' FR), <- (combine_fst_map (fl_channel F) fs' (totals w sizes s perms fs)) by exact LL. now apply (in_map (fun fp : flush F * F => fl_channel F (fst fp))). }
      apply in_map_iff in IC. destruct IC as [f [E I]]. exists f. auto. }
    destruct (balance_loop_spec L s perms bs (length fs') (combine fs' (totals w sizes s perms fs))) as [[B1 B2]|[B1 [fp [I B2]]]].
    - rewrite combine_length. lia.
    - now rewrite (combine_fst_map (fl_channel F)), (route_channels fs fs' FR) by exact LL.
    - intros fp Hp. destruct (NI fp Hp) as [f [Hf ->]]. now apply HP.
    - left. split; [exact B1|]. intros f Hf r ER. destruct (IN f Hf) as [fp [Hp EC]]. specialize (B2 fp Hp). rewrite EC in B2. specialize (B2 r ER).
      rewrite !(sidef_totals _ _ s r perms w sizes fs fs' ER FR) in B2. now rewrite !side_app.
    - right. split; [exact B1|]. intros OK. apply B2. destruct (NI fp I) as [f [Hf EC]]. rewrite EC. intros r ER.
      rewrite !(sidef_totals _ _ s r perms w sizes fs fs' ER FR), <- !side_app. now apply OK.
  Qed.

  (* ---------------------------------------------------------------- *)
  (** * Challenges *)

  Lemma sample_one {B} (good : B -> Prop) d e (b : F -> bool) : at_most d b -> forall N c (k : list F -> vproto F B), (c < N)%nat ->
    (forall r, length r = N -> b (nth c r 0) = false -> sound good e (k r)) -> sound good (d + e) (vbind (vsamples N) k).
  Proof.
    intros HB. induction N as [|N IH]; intros c k Hc H; [lia|]. cbn [vsamples vbind]. destruct c as [|c].
    - apply (sound_sample F good d e b); [exact HB|]. intros x Hx. apply sound_assoc. cbn [vbind]. apply sample_any. intros r Hr. apply H; [cbn; lia|exact Hx].
    - change (d + e)%nat with (0 + (d + e))%nat. apply (sound_sample F good 0 (d + e) (fun _ => false)); [apply at_most_none|]. intros x _. apply sound_assoc. cbn [vbind].
      apply (IH c (fun r => k (x :: r))); [lia|]. intros r Hr Hb. apply H; [cbn; lia|exact Hb].
  Qed.

  (* ---------------------------------------------------------------- *)
  (** * The phase *)

  Section Phase.
    Variable os : oset L.
    Variable V : values L.
    Variable flushes : list (flush F).
    Variable non_zero : list nat.
    Variable specs : list size_spec.
    Variable sizes : list nat.
    Variable bs : list (boundary F).

    (** the set of oracles is well formed, [V] are its values, the sizes are what the tables allow, the columns of flushes of non-empty
        tables have the variables their tables need, and the columns used as selectors hold bits *)
    Definition phase_ok : Prop :=
      oset_ok os /\ consistent os V /\ check_table_sizes specs sizes = Ok tt /\
      (forall f, In f flushes -> nonempty sizes f = true -> sized_flush L os sizes f) /\
      (forall f id x, In f flushes -> nonempty sizes f = true -> In id (fl_selectors F f) -> (x < 2 ^ flush_vars L sizes f)%nat -> V id x = 0 \/ V id x = 1).

    (** The evaluation claims are true of values [V'] of the final oracle set that extend [V]. *)
    Definition accepts (out : oset L * list (nat * list F * F)) : Prop :=
      exists V', consistent (fst out) V' /\ agree L os V V' /\ Forall (fun c => mle (V' (fst (fst c))) (snd (fst c)) = snd c) (snd out).

    Definition phase_vars : nat := fold_right Nat.max 0%nat (map (flush_vars L sizes) (filter (nonempty sizes) flushes) ++ map (n_vars_or0 os) non_zero).
    Definition phase_count : nat := (length (filter (nonempty sizes) flushes) + length non_zero)%nat.
    Definition gpa_error : nat := (phase_vars * (phase_count + phase_vars * 3))%nat.

    Let w := wit L os V.
    Let es := events F w sizes flushes bs.

    Definition flushed (c : nat) : Prop := exists f, In f flushes /\ fl_channel F f = c /\ nonempty sizes f = true.

    (** what a prover must not get away with, once the challenges are drawn *)
    Definition caught (s : F) (perms : list F) (nzp : list F) : Prop :=
      (exists c, flushed c /\ forall r, nth_error perms c = Some r -> side F Pull c s r es <> side F Push c s r es) \/
      (exists id x, In id non_zero /\ (x < 2 ^ n_vars_or0 os id)%nat /\ V id x = 0) /\ forall p, In p nzp -> p <> 0.

    Definition tail (s : F) (perms : list F) (nz_claims : list (nat * F)) : vproto F (oset L * list (nat * list F * F)) :=
      get fs <- VRet (prepare_flushes sizes flushes);
      get a <- VRet (augment_flush_po2_step_down os fs specs sizes);
      get x <- VRet (make_flush_oracles s perms 0 (fst a, [1]) (snd a));
      get products <- vread (length (snd x));
      get _ <- VRet (verify_channels_balance (snd a) products bs s perms);
      get claims <- VRet (product_claims (fst x) (snd x) products);
      get fin <- gpa_verify HighToLow (claims ++ nz_claims);
      get ecs <- VRet (make_eval_claims (snd x ++ non_zero) fin);
      VRet (Ok (fst x, ecs)).

    Lemma product_claims_inv (o : oset L) ids ps cl : product_claims o ids ps = Ok cl ->
      length ids = length ps /\ cl = map (fun ip => (n_vars_or0 o (fst ip), snd ip)) (combine ids ps) /\ forall id, In id ids -> exists oi, present L o id oi.
    Proof.
      unfold product_claims. destruct (rmap (oget o) ids) as [l| |] eqn:E; cbn [rbind]; try discriminate. unfold construct_claims.
      destruct (Nat.eqb_spec (length ids) (length ps)); cbn [negb]; [|discriminate]. intros [= <-]. split; [auto|]. split; [auto|].
      apply rmap_inv in E. intros id Hi. clear - E Hi. induction E as [|a b l1 l2 H _ IH]; [destruct Hi|]. destruct Hi as [<-|Hi]; [exists b; now apply oget_inv|auto].
    Qed.

    Lemma prodn_zero (g : nat -> F) n x : (x < n)%nat -> g x = 0 -> prodn n g = 0.
    Proof.
      induction n as [|n IH]; intros Hx E; [lia|]. rewrite prodn_S. destruct (Nat.eq_dec x n) as [->|N]; [rewrite E; ring|]. rewrite IH by (auto; lia). ring.
    Qed.

    Lemma differ_in (fs : list (flush F)) (T : flush F -> F) : forall ps, length ps = length fs -> ps <> map T fs -> exists f p, In (f, p) (combine fs ps) /\ p <> T f.
    Proof.
      induction fs as [|f fs IH]; intros [|p ps] LE NE; cbn in LE; try lia; [now destruct NE|]. cbn [map combine] in *. destruct (feq_dec F p (T f)) as [E|E].
      - destruct (IH ps) as [f' [p' [H1 H2]]]; [lia|congruence|]. exists f', p'. split; [now right|exact H2].
      - exists f, p. split; [now left|exact E].
    Qed.

    Lemma claims_tables (Q : flush F -> nat -> Prop) (N : nat -> nat) (T : flush F -> nat -> F) (fs : list (flush F)) ids : Forall2 Q fs ids -> (forall f id, Q f id -> N id = flush_vars L sizes f) -> forall ps, length ps = length fs ->
      map (fun ip => (N (fst ip), snd ip)) (combine ids ps) = map fst (map (fun fp : flush F * F => ((flush_vars L sizes (fst fp), snd fp), T (fst fp))) (combine fs ps)).
    Proof.
      intros F2 HQ. induction F2 as [|f id fs ids HF _ IH]; intros [|p ps] LE; cbn in LE; try lia; [reflexivity|]. cbn [combine map fst snd]. rewrite IH by lia. now rewrite (HQ _ _ HF).
    Qed.

    Lemma tail_sound s perms nzp nz_claims : phase_ok -> product_claims os non_zero nzp = Ok nz_claims -> caught s perms nzp ->
      sound (fun out => ~ accepts out) gpa_error (tail s perms nz_claims).
    Proof.
      intros (HO & HV & HT & HS & HB) HN BAD. unfold tail. apply sound_bind0. intros fs EP. apply sound_bind0. intros [os1 fs'] EA. apply sound_bind0. intros [os2 ids] EM. cbn [fst snd].
      apply sound_bind_read. intros products LP. apply sound_bind0. intros [] EB. apply sound_bind0. intros claims ECL. cbn [fst snd].
      apply prepare_ok in EP. destruct EP as [PERM SS]. apply augment_ok in EA; [|exact HO]. destruct EA as [O1 [[ext1 X1] AU]].
      change [1] with (map (fpow s) (seq 0 1)) in EM. apply (make_flush_oracles_ok L s perms [] fs' os1 0 os2 ids O1) in EM. cbn [app] in EM. destruct EM as [O2 [[ext2 X2] [fa [fb [EF MD]]]]].
      assert (FB : fb = []).
      { unfold verify_channels_balance in EB. destruct (Nat.eqb_spec (length products) (length fs')) as [E|E]; cbn [negb] in EB; [|discriminate]. apply forall2_len in MD.
        rewrite EF, app_length in E. destruct fb; [reflexivity|cbn in E; lia]. }
      subst fb. rewrite app_nil_r in EF. subst fa.
      assert (IF : forall f, In f fs -> In f flushes /\ nonempty sizes f = true) by (intros f Hf; apply (Permutation_in _ PERM) in Hf; now apply filter_In in Hf).
      (* every flush with its oracle *)
      assert (FACT : Forall2 (fun f id => n_vars_or0 os2 id = flush_vars L sizes f /\ exists r, nth_error perms (fl_channel F f) = Some r /\
          forall V', consistent os2 V' -> agree L os V V' -> forall x, (x < 2 ^ flush_vars L sizes f)%nat -> V' id x = flush_table L w sizes s r f x) fs ids /\ Forall2 same_route fs fs').
      { clear EB LP ECL. revert ids MD. revert IF. clear PERM SS. induction AU as [|f f' fs fs' A1 AU IH]; intros IF ids MD; inversion MD as [|? id ? ids' M1 MD']; subst; [split; constructor|].
        destruct (IH (fun g Hg => IF g (or_intror Hg)) ids' MD') as [I1 I2].
        destruct (oracle_is_table L os V specs sizes _ ext1 _ ext2 s perms f f' id HT eq_refl eq_refl (HS f (proj1 (IF f (or_introl eq_refl))) (proj2 (IF f (or_introl eq_refl))))
          ltac:(intros x Hx i Hi; apply (HB f i x); auto; apply (IF f); now left) A1 M1) as (R1 & R2 & R3 & R4 & _ & R5).
        split; constructor; auto. split; auto. }
      destruct FACT as [FACT ROUTE]. assert (LI : length ids = length fs) by (symmetry; now apply forall2_len in FACT).
      apply product_claims_inv in ECL. destruct ECL as [L1 [-> _]]. apply product_claims_inv in HN. destruct HN as [L2 [-> PN]].
      set (T := fun f => flush_table L w sizes s (chal perms f) f).
      set (insts := map (fun fp : flush F * F => ((flush_vars L sizes (fst fp), snd fp), T (fst fp))) (combine fs products) ++
                    map (fun ip : nat * F => ((n_vars_or0 os (fst ip), snd ip), V (fst ip))) (combine non_zero nzp)).
      assert (EI : map (fun ip : nat * F => (n_vars_or0 os2 (fst ip), snd ip)) (combine ids products) ++ map (fun ip : nat * F => (n_vars_or0 os (fst ip), snd ip)) (combine non_zero nzp) = map fst insts).
      { unfold insts. rewrite map_app. f_equal; [|now rewrite map_map].
        apply (claims_tables (fun f id => n_vars_or0 os2 id = flush_vars L sizes f) (n_vars_or0 os2) T fs ids); [|auto|lia]. eapply Forall2_weaken; [|exact FACT]. cbn. intros f id _ [H _]. exact H. }
      rewrite EI.
      assert (LIN : length insts = phase_count).
      { unfold insts, phase_count. rewrite app_length, !map_length, !combine_length, <- (Permutation_length PERM). lia. }
      assert (MAX : max_n F insts = phase_vars).
      { unfold max_n, phase_vars, insts. rewrite map_app, !map_map. cbn [fst].
        rewrite (combine_fst_map (flush_vars L sizes)) by lia. rewrite (combine_fst_map (n_vars_or0 os)) by lia. apply max_perm. apply Permutation_app_tail, Permutation_map, PERM. }
      (* one of the products is wrong *)
      assert (WRONG : exists g, In g insts /\ ~ gp_true g).
      { destruct BAD as [[c [[f0 [F1 [F2 F3]]] NE]]|[[id [x [I1 [I2 I3]]]] NZ]].
        - destruct (veq_dec F products (totals w sizes s perms fs)) as [E|E].
          + exfalso. subst products. assert (HC : forall f, In f fs -> (fl_channel F f < length perms)%nat).
            { intros f Hf. apply In_nth_error in Hf. destruct Hf as [i Hi]. clear - FACT Hi. revert i Hi. induction FACT as [|f0 id fs ids [_ [r [ER _]]] _ IH]; intros [|i] Hi; try discriminate; [|eauto].
              injection Hi as ->. apply nth_error_Some. congruence. }
            destruct (balance_totals s perms bs w sizes fs fs' ROUTE SS HC) as [[_ OK]|[B _]]; [|congruence].
            assert (I0 : In f0 fs) by (apply (Permutation_in _ (Permutation_sym PERM)); apply filter_In; auto).
            destruct (nth_error perms c) as [r|] eqn:ER; [|apply nth_error_None in ER; specialize (HC f0 I0); lia].
            apply (NE r eq_refl). specialize (OK f0 I0). rewrite F2 in OK. specialize (OK r ER). rewrite !side_app in OK.
            unfold es. rewrite !(side_events _ c s r w sizes flushes bs fs PERM). exact OK.
          + unfold totals in E. destruct (differ_in fs (fun f => flush_total w sizes s (chal perms f) f) products) as [f [p [Hfp NE']]]; [lia|exact E|].
            exists ((flush_vars L sizes f, p), T f). split; [unfold insts; apply in_or_app; left; apply in_map_iff; exists (f, p); auto|]. unfold gp_true. cbn [fst snd]. exact NE'.
        - apply In_nth_error in I1. destruct I1 as [i Hi]. destruct (nth_error nzp i) as [p|] eqn:EPi.
          2:{ exfalso. apply nth_error_None in EPi. assert (i < length non_zero)%nat by (apply nth_error_Some; congruence). lia. }
          assert (IC : In (id, p) (combine non_zero nzp)).
          { clear - Hi EPi. revert nzp i Hi EPi. induction non_zero as [|a l IH]; intros [|b m] [|i] H1 H2; cbn in *; try discriminate; [left; congruence|right; eauto]. }
          exists ((n_vars_or0 os id, p), V id). split; [unfold insts; apply in_or_app; right; apply in_map_iff; exists (id, p); auto|]. unfold gp_true. cbn [fst snd].
          rewrite (prodn_zero (V id) _ x I2 I3). apply NZ. now apply nth_error_In in EPi. }
      unfold gpa_error. rewrite <- LIN, <- MAX, <- (Nat.add_0_r (_ * _)). eapply sound_bind; [apply sound_returns; [apply (gpa_verify_sound F HighToLow insts WRONG)|apply gpa_verify_returns]|].
      intros fin [NF SF]. cbn beta in NF, SF. apply sound_bind0. intros ecs EE. constructor. intros [V' [C' [AG TR]]]. cbn [fst snd] in *. apply NF.
      unfold make_eval_claims in EE. destruct (_ =? length fin)%nat eqn:ELF; cbn [negb] in EE; [|discriminate]. injection EE as <-. apply Nat.eqb_eq in ELF.
      rewrite Forall_map in TR. clear NF. unfold insts in SF |- *.
      (* a claim on a flush oracle is a claim on the table *)
      assert (TAB : forall f id, In (f, id) (combine fs ids) -> n_vars_or0 os2 id = flush_vars L sizes f /\ forall x, (x < 2 ^ flush_vars L sizes f)%nat -> V' id x = T f x).
      { intros f id Hfi. pose proof (forall2_combine _ _ _ _ _ FACT Hfi) as [H1 [r [H2 H3]]]. split; [exact H1|]. intros x Hx. rewrite (H3 V' C' AG x Hx). unfold T, chal. now rewrite (nth_error_nth _ _ _ H2). }
      clear EI LIN MAX WRONG EB FACT. clear AU MD ROUTE SS PERM. clear insts.
      revert ids products fin LP LI L1 ELF SF TR TAB. induction fs as [|f fs IH]; intros [|id ids] [|p products] fin LP LI L1 ELF SF TR TAB; cbn in LI, L1; try lia.
      + cbn [combine map app] in *. clear - SF TR AG PN L2. revert nzp fin L2 SF TR. induction non_zero as [|id l IH]; intros [|p nzp] fin L2 SF TR; cbn in L2; try lia; cbn [combine map] in *; inversion SF as [|g cl gs cls S1 S2]; subst; constructor.
        * cbn [combine] in TR. inversion TR as [|? ? T1 T2]; subst. cbn [fst snd] in T1. split; [exact S1|]. cbn [fst snd]. rewrite <- T1. apply mle_ext. intros x Hx.
          destruct (PN id (or_introl eq_refl)) as [oi Pi]. apply (AG id oi Pi). unfold final_shape in S1. cbn [fst] in S1. rewrite S1 in Hx. unfold n_vars_or0, oget in Hx. unfold present in Pi. now rewrite Pi in Hx.
        * cbn [combine] in TR. inversion TR as [|? ? T1 T2]; subst. apply IH; auto. intros i Hi. apply PN. now right.
      + cbn [combine map app] in *. inversion SF as [|g cl gs cls S1 S2]; subst. constructor.
        * inversion TR as [|? ? T1 T2]; subst. cbn [fst snd] in T1. split; [exact S1|]. cbn [fst snd]. rewrite <- T1. apply mle_ext. intros x Hx.
          destruct (TAB f id (or_introl eq_refl)) as [_ H]. apply H. unfold final_shape in S1. cbn [fst] in S1. now rewrite S1 in Hx.
        * inversion TR as [|? ? T1 T2]; subst. apply (IH (fun g Hg => IF g (or_intror Hg)) ids products cls); auto; try lia. intros g i Hg. apply TAB. now right.
    Qed.

    Lemma phase_sound e nzp s perms nz_claims : phase_ok -> product_claims os non_zero nzp = Ok nz_claims -> caught s perms nzp ->
      sound (fun out => ~ accepts out) (e + gpa_error) (tail s perms nz_claims).
    Proof. intros H1 H2 H3. eapply sound_mono; [now apply (tail_sound s perms nzp)|lia|auto]. Qed.

    Lemma sent_width c x wd : (forall e, In e es -> ev_channel F e = c -> length (ev_values F e) = wd) -> sent F Push c x es <> sent F Pull c x es -> length x = wd.
    Proof.
      intros H. induction es as [|e l IH]; intros NE; [cbn in NE; congruence|]. cbn [sent] in NE.
      destruct (hits F c x e) eqn:EH.
      - unfold hits in EH. apply andb_prop in EH. destruct EH as [EC EX]. apply Nat.eqb_eq in EC. destruct (key_dec F (ev_values F e) x) as [<-|]; [|discriminate]. apply H; [now left|exact EC].
      - rewrite !andb_false_r in NE. apply IH; [intros; apply H; auto; now right|lia].
    Qed.

    (** A channel over which some table is flushed, with tuples of [wd] elements, is not balanced. *)
    Theorem unbalanced_sound channel_count c x wd : phase_ok -> flushed c ->
      (forall e, In e es -> ev_channel F e = c -> length (ev_values F e) = wd) ->
      sent F Push c x es <> sent F Pull c x es ->
      sound (fun out => ~ accepts out) (length (on_channel F c es) * (wd - 1) + (Nat.max (weight F Push c es) (weight F Pull c es) + gpa_error))
        (product_phase os flushes non_zero specs sizes channel_count bs).
    Proof.
      intros OK FL W NE. unfold product_phase. apply sound_bind_read. intros nzp LN. destruct (existsb _ nzp); [constructor|]. apply sound_bind0. intros nz_claims EN.
      apply sound_bind_sample with (b := collides F c x es); [apply collides_few; [now apply (sent_width c x wd)|exact W]|]. intros s HS.
      destruct (Nat.lt_ge_cases c channel_count) as [LT|GE].
      - apply (sample_one _ _ _ (fun r => feqb (side F Pull c s r es) (side F Push c s r es))) with (c := c); [apply (unbalanced_side F c s x es NE); now apply collides_false|exact LT|].
        intros perms LP HR. apply (tail_sound s perms nzp); auto. left. exists c. split; [exact FL|]. intros r ER EQ. rewrite (nth_error_nth _ _ _ ER) in HR.
        rewrite EQ, feqb_refl in HR. discriminate.
      - apply sample_any. intros perms LP. apply (phase_sound _ nzp); auto. left. exists c. split; [exact FL|]. intros r ER. exfalso. assert (c < length perms)%nat by (apply nth_error_Some; congruence). lia.
    Qed.

    (** A column that should have no zero has one. *)
    Theorem zero_sound channel_count id x : phase_ok -> In id non_zero -> (x < 2 ^ n_vars_or0 os id)%nat -> V id x = 0 ->
      sound (fun out => ~ accepts out) gpa_error (product_phase os flushes non_zero specs sizes channel_count bs).
    Proof.
      intros OK HI HX HZ. unfold product_phase. apply sound_bind_read. intros nzp LN. destruct (existsb _ nzp) eqn:EX; [constructor|]. apply sound_bind0. intros nz_claims EN.
      change gpa_error with (0 + gpa_error)%nat. apply sound_bind_sample with (b := fun _ => false); [apply at_most_none|]. intros s _. apply sample_any. intros perms LP.
      apply (tail_sound s perms nzp); auto. right. split; [exists id, x; auto|]. intros p Hp Z. subst p. assert (T : existsb (fun x : F => feqb x 0) nzp = true); [|congruence].
      apply existsb_exists. exists 0. split; [exact Hp|apply feqb_refl].
    Qed.
  End Phase.

  (* ---------------------------------------------------------------- *)
  (** * C71 *)

  (** If a channel over which a non-empty table is flushed is not balanced (some tuple [x] is not pushed as often as it is
      pulled) and its tuples have [wd] elements, then against any prover, of the vectors of [k] challenges from any set
      [S], at most a fraction [error / |S|] make the verifier accept with evaluation claims that are true of the flush
      oracles.  The evaluation claims are checked by the rest of the protocol. *)
  Theorem channel_balance_soundness (os : oset L) V flushes non_zero specs sizes bs channel_count c x wd :
    let es := events F (wit L os V) sizes flushes bs in
    phase_ok os V flushes specs sizes -> flushed flushes sizes c ->
    (forall e, In e es -> ev_channel F e = c -> length (ev_values F e) = wd) ->
    sent F Push c x es <> sent F Pull c x es ->
    forall (strategy : list F -> nat -> list F) (S : list F) (k : nat) (Ls : list (list F)), NoDup S -> NoDup Ls ->
      (forall cs, In cs Ls -> length cs = k /\ incl cs S /\
         exists out, vplay (product_phase os flushes non_zero specs sizes channel_count bs) strategy [] 0 cs = Ok out /\ accepts os V out) ->
      (length Ls * length S <=
         (length (on_channel F c es) * (wd - 1) + (Nat.max (weight F Push c es) (weight F Pull c es) + gpa_error os flushes non_zero sizes)) * length S ^ k)%nat.
  Proof. intros es H1 H2 H3 H4. apply of_sound. now apply (unbalanced_sound os V flushes non_zero specs sizes bs channel_count c x wd). Qed.

  (** The same for a column of the non-zero list that is zero somewhere. *)
  Theorem nonzero_soundness (os : oset L) V flushes non_zero specs sizes bs channel_count id o x :
    phase_ok os V flushes specs sizes -> In id non_zero -> nth_error os id = Some (Some o) -> (x < 2 ^ o_nvars o)%nat -> V id x = 0 ->
    forall (strategy : list F -> nat -> list F) (S : list F) (k : nat) (Ls : list (list F)), NoDup S -> NoDup Ls ->
      (forall cs, In cs Ls -> length cs = k /\ incl cs S /\
         exists out, vplay (product_phase os flushes non_zero specs sizes channel_count bs) strategy [] 0 cs = Ok out /\ accepts os V out) ->
      (length Ls * length S <= gpa_error os flushes non_zero sizes * length S ^ k)%nat.
  Proof.
    intros H1 H2 H3 H4 H5. apply of_sound. apply (zero_sound os V flushes non_zero specs sizes bs channel_count id x); auto. unfold n_vars_or0, oget. now rewrite H3.
  Qed.

  (** The oracle of every flush has the documented values: [r + Sum_i s^i v_i] for a tuple [v] sent over the channel, one on
      the rows that are not selected and on the rows after the end of the table. *)
  Theorem flush_oracles_correct (os : oset L) V flushes specs sizes s perms fs a out : phase_ok os V flushes specs sizes ->
    prepare_flushes sizes flushes = Ok fs -> augment_flush_po2_step_down os fs specs sizes = Ok a ->
    make_flush_oracles s perms 0 (fst a, [1]) (snd a) = Ok out -> length (snd out) = length fs ->
    (exists ext, fst out = os ++ ext) /\
    Forall2 (fun f id => exists o r, nth_error (fst out) id = Some (Some o) /\ nth_error perms (fl_channel F f) = Some r /\
      o_nvars o = (log2_ceil (nth (fl_table F f) sizes 0%nat) + fl_log_values_per_row F f)%nat /\
      forall V', consistent (fst out) V' -> agree L os V V' -> forall x, (x < 2 ^ o_nvars o)%nat ->
        V' id x = if (x <? nth (fl_table F f) sizes 0 * 2 ^ fl_log_values_per_row F f)%nat && selected F (wit L os V) f x
                  then r + peval (tuple F (wit L os V) f x) s else 1) fs (snd out).
  Proof.
    intros (HO & HV & HT & HS & HB) EP EA EM LF. destruct a as [os1 fs'], out as [os2 ids]. cbn [fst snd] in *.
    apply prepare_ok in EP. destruct EP as [PERM SS]. apply augment_ok in EA; [|exact HO]. destruct EA as [O1 [[ext1 X1] AU]].
    change [1] with (map (fpow s) (seq 0 1)) in EM. apply (make_flush_oracles_ok L s perms [] fs' os1 0 os2 ids O1) in EM. cbn [app] in EM. destruct EM as [O2 [[ext2 X2] [fa [fb [EF MD]]]]].
    split; [exists (ext1 ++ ext2); now rewrite app_assoc, <- X1|].
    assert (FB : fb = []).
    { apply forall2_len in MD. apply forall2_len in AU. rewrite EF, app_length in AU. destruct fb; [reflexivity|cbn in AU; lia]. }
    subst fb. rewrite app_nil_r in EF. subst fa.
    assert (IF : forall f, In f fs -> In f flushes /\ nonempty sizes f = true) by (intros f Hf; apply (Permutation_in _ PERM) in Hf; now apply filter_In in Hf).
    clear LF PERM SS. revert ids MD. induction AU as [|f f' fs fs' A1 AU IH]; intros ids MD; inversion MD as [|? id ? ids' M1 MD']; subst; constructor; [|apply IH; auto; intros; apply IF; now right].
    destruct (oracle_is_table L os V specs sizes _ ext1 _ ext2 s perms f f' id HT eq_refl eq_refl (HS f (proj1 (IF f (or_introl eq_refl))) (proj2 (IF f (or_introl eq_refl))))
      ltac:(intros x Hx i Hi; apply (HB f i x); auto; apply (IF f); now left) A1 M1) as (_ & _ & _ & R4 & R5 & r & R6 & R7).
    unfold n_vars_or0, oget in R4, R5. destruct (nth_error _ id) as [[o|]|] eqn:EO in R4; rewrite EO in R5; try (now destruct R5).
    exists o, r. split; [exact EO|]. split; [exact R6|]. split; [exact R4|]. intros V' C' AG x Hx. rewrite R4 in Hx. exact (R7 V' C' AG x Hx).
  Qed.

  Lemma all_channels (s : F) perms : forall c st fs out, make_flush_oracles s perms c st fs = Ok out -> StronglySorted le (map (fl_channel F) fs) ->
    (forall f, In f fs -> (c <= fl_channel F f < c + length perms)%nat) -> length (snd out) = length fs.
  Proof.
    induction perms as [|r perms IH]; intros c st fs out H SS HC; cbn [make_flush_oracles] in H.
    - destruct fs as [|f fs]; [now injection H as <-|]. specialize (HC f (or_introl eq_refl)). cbn in HC. lia.
    - pose proof (take_channel_spec (fl_channel F) c fs) as TS. destruct (take_channel (fl_channel F) c fs) as [mine others]. destruct TS as [-> [HM HN]].
      destruct (make_channel s r st mine) as [[st1 ids1]| |] eqn:E1; cbn [rbind fst snd] in H; try discriminate.
      destruct (make_flush_oracles s perms (S c) st1 others) as [[os2 ids2]| |] eqn:E2; cbn [rbind fst snd] in H; try discriminate. injection H as <-. cbn [snd]. rewrite !app_length. f_equal.
      + clear - E1. revert st st1 ids1 E1. induction mine as [|f mine IHm]; intros st st1 ids1 E1; cbn [make_channel] in E1; [now injection E1 as _ <-|].
        destruct (make_flush_oracle s r st f) as [x| |]; cbn [rbind] in E1; try discriminate. destruct (make_channel s r (fst x) mine) as [[y ys]| |] eqn:E; cbn [rbind fst snd] in E1; try discriminate.
        injection E1 as _ <-. cbn [length]. f_equal. eapply IHm; eauto.
      + rewrite map_app in SS. assert (SO : StronglySorted le (map (fl_channel F) others)).
        { clear - SS. induction (map (fl_channel F) mine) as [|z l' IH]; [exact SS|]. cbn [app] in SS. inversion SS; subst. auto. }
        apply (IH (S c) st1 others (os2, ids2) E2 SO). intros f Hf. pose proof (HC f (in_or_app _ _ _ (or_intror Hf))) as Hc. cbn [length] in Hc. destruct others as [|g others]; [destruct Hf|].
        pose proof (HN g others eq_refl) as NG. assert (fl_channel F g <= fl_channel F f)%nat.
        { destruct Hf as [->|Hf]; [lia|]. cbn [map] in SO. inversion SO as [|? ? _ FA]; subst. rewrite Forall_forall in FA. apply FA. now apply in_map. }
        assert (IG : In g (mine ++ g :: others)) by (apply in_or_app; right; now left). pose proof (HC g IG). lia.
  Qed.

  (** If every channel is balanced then the products of the flush oracles over the hypercube pass the check, whatever the challenges. *)
  Theorem channel_balance_complete (os : oset L) V flushes specs sizes bs s perms fs a out V' : phase_ok os V flushes specs sizes ->
    prepare_flushes sizes flushes = Ok fs -> augment_flush_po2_step_down os fs specs sizes = Ok a ->
    make_flush_oracles s perms 0 (fst a, [1]) (snd a) = Ok out -> consistent (fst out) V' -> agree L os V V' ->
    (forall f, In f flushes -> (fl_channel F f < length perms)%nat) ->
    (forall c x, sent F Push c x (events F (wit L os V) sizes flushes bs) = sent F Pull c x (events F (wit L os V) sizes flushes bs)) ->
    verify_channels_balance (snd a) (map (fun id => prodn (2 ^ n_vars_or0 (fst out) id) (V' id)) (snd out)) bs s perms = Ok tt.
  Proof.
    intros OK EP EA EM C' AG HC BAL. destruct a as [os1 fs'], out as [os2 ids]. cbn [fst snd] in *.
    pose proof (prepare_ok sizes flushes fs EP) as [PERM SS].
    assert (IF : forall f, In f fs -> In f flushes /\ nonempty sizes f = true) by (intros f Hf; apply (Permutation_in _ PERM) in Hf; now apply filter_In in Hf).
    assert (ROUTE : Forall2 same_route fs fs').
    { apply augment_ok in EA; [|apply OK]. destruct EA as [_ [_ AU]]. eapply Forall2_weaken; [|exact AU]. intros f f' _ [spec [_ H]]. destruct spec; [subst; repeat split|subst; repeat split|]. destruct H as [i [-> _]]. repeat split. }
    assert (LF : length ids = length fs).
    { rewrite (forall2_len _ _ _ ROUTE). apply (all_channels s perms 0 (os1, [1]) fs' (os2, ids) EM).
      - now rewrite (route_channels fs fs' ROUTE).
      - intros f Hf. split; [lia|]. assert (I : In (fl_channel F f) (map (fl_channel F) fs')) by now apply in_map. rewrite (route_channels fs fs' ROUTE) in I.
        apply in_map_iff in I. destruct I as [g [E Hg]]. rewrite <- E. apply HC, (proj1 (IF g Hg)). }
    destruct (flush_oracles_correct os V flushes specs sizes s perms fs (os1, fs') (os2, ids) OK EP EA EM LF) as [_ FO]. cbn [fst snd] in FO.
    assert (EQ : map (fun id => prodn (2 ^ n_vars_or0 os2 id) (V' id)) ids = totals (wit L os V) sizes s perms fs).
    { clear - FO C' AG. induction FO as [|f id fs ids [o [r [E1 [E2 [E3 E4]]]]] _ IH]; [reflexivity|]. cbn [map totals]. unfold totals in IH. rewrite IH. f_equal. unfold flush_total.
      unfold n_vars_or0, oget. rewrite E1, E3. fold (flush_vars L sizes f). apply prodn_ext. intros x Hx. rewrite (E4 V' C' AG x) by (rewrite E3; exact Hx).
      unfold flush_table, flush_rows, chal. now rewrite (nth_error_nth _ _ _ E2). }
    rewrite EQ. destruct (balance_totals s perms bs (wit L os V) sizes fs fs' ROUTE SS) as [[B _]|[_ B]]; [intros f Hf; apply HC, (proj1 (IF f Hf))|exact B|]. exfalso. apply B.
    intros f Hf r ER. pose proof (balanced_side F (fl_channel F f) s r _ (BAL (fl_channel F f))) as H. rewrite !(side_events _ _ s r (wit L os V) sizes flushes bs fs PERM) in H. now rewrite !side_app.
  Qed.

  (** The check never looks at a channel without a flush. *)
  Lemma balance_ignores (s : F) perms bs bs' : forall fuel fps, (forall fp, In fp fps -> filter (fun b => bd_channel F b =? fl_channel F (fst fp))%nat bs = filter (fun b => bd_channel F b =? fl_channel F (fst fp))%nat bs') ->
    balance_loop fuel s perms bs fps = balance_loop fuel s perms bs' fps.
  Proof.
    assert (G : forall c l p, fold_r (boundary_product s perms c) l p = fold_r (boundary_product s perms c) (filter (fun b => bd_channel F b =? c)%nat l) p).
    { intros c l. induction l as [|b l IH]; intros p; [reflexivity|]. cbn [fold_r filter]. unfold boundary_product at 1. destruct (bd_channel F b =? c)%nat eqn:E.
      - cbn [fold_r]. unfold boundary_product at 2. rewrite E. destruct (nth_error perms c); cbn [of_opt rbind]; [apply IH|reflexivity].
      - cbn [rbind]. apply IH. }
    induction fuel as [|fuel IH]; intros [|fp fps] H; try reflexivity. cbn [balance_loop]. rewrite (G _ bs), (G _ bs'), (H fp (or_introl eq_refl)).
    destruct (fold_r _ _ _) as [p| |]; cbn [rbind]; auto.
    pose proof (take_channel_spec (fun fp : flush F * F => fl_channel F (fst fp)) (fl_channel F (fst fp)) (fp :: fps)) as TS. destruct (take_channel _ _ _) as [mine others]. destruct TS as [E _].
    destruct (fold_left flush_product mine p) as [pl ps]. destruct (negb (feqb pl ps)); auto. apply IH. intros fp' I. apply H. rewrite E. apply in_or_app. now right.
  Qed.

  Lemma zero_mixes (r s : F) : r + (0 * (1 * s) + 0) = r.
  Proof. ring. Qed.
  Lemma zero_mixes2 (r a : F) : 1 * ((r + a) * 1) = 1 * ((r + 1 * a) * 1).
  Proof. ring. Qed.
  Lemma zero_mixes3 (r a : F) : r + a = r + (1 * a + 0).
  Proof. ring. Qed.
End Props.

(* -------------------------------------------------------------------- *)
(** * Examples and counterexamples *)

Definition fl16 (dir : direction) (cols : list (oracle_or_const X16)) (sel : list nat) : flush X16 := mkFlush X16 0 0 cols 0 dir sel 1%N.
Definition bd16 (dir : direction) (vs : list X16) : boundary X16 := mkBoundary X16 vs 0 dir 1%N.
(** columns of two variables, and a selector; the table has three rows *)
Definition os16 : oset 2 := [Some (mkOracle 2 2 Committed); Some (mkOracle 2 0 Committed)].
Definition V16 : values 2 := fun id x => if (id =? 1)%nat then (if (x =? 1)%nat then f0 else f1) else el (N.of_nat (x + 4)).
Definition push16 : flush X16 := fl16 Push [Oracle X16 0; Const X16 (el 7)] [1].

Fact phase_ok_nonvacuous : phase_ok 2 os16 V16 [push16] [Arbitrary] [3].
Proof.
  split; [intros [|[|[|]]] o E; cbn in E; inversion E; exact I|]. split; [intros [|[|[|]]] o E; cbn in E; inversion E; subst; intros; exact I|]. split; [reflexivity|]. split.
  - intros f [<-|[]] _. exists 3. split; [reflexivity|]. intros id [<-|[<-|[]]]; eexists; split; reflexivity.
  - intros f id x [<-|[]] _ [<-|[]] _. unfold V16. cbn [Nat.eqb]. destruct (x =? 1)%nat; auto.
Qed.

(** rows 0 and 2 are sent; pulling only one of the two tuples leaves the channel unbalanced *)
Fact unbalanced_nonvacuous :
  let es := events X16 (wit 2 os16 V16) [3] [push16] [bd16 Pull [el 4; el 7]] in
  map (fun e => map bits (ev_values X16 e)) es = [[4; 7]; [4; 7]; [6; 7]]%N /\ flushed 2 [push16] [3] 0 /\
  sent X16 Push 0 [el 6; el 7] es <> sent X16 Pull 0 [el 6; el 7] es /\
  (forall e, In e es -> length (ev_values X16 e) = 2).
Proof.
  split; [vm_compute; reflexivity|]. split; [exists push16; split; [now left|split; reflexivity]|]. split; [vm_compute; discriminate|].
  intros e H. cbn in H. decompose [or] H; subst; auto; contradiction.
Qed.

(** The prover sends the sizes of the tables.  With every table of a channel empty the boundaries of the channel are not
    checked: here a tuple is pulled that nobody pushes, and every run of the verifier accepts, without any claim left to check. *)
Theorem empty_table_refuted :
  let bs := [bd16 Pull [el 4; el 7]] in
  phase_ok 2 [None; None] V16 [push16] [Arbitrary] [0] /\
  sent X16 Push 0 [el 4; el 7] (events X16 (wit 2 [None; None] V16) [0] [push16] bs) <> sent X16 Pull 0 [el 4; el 7] (events X16 (wit 2 [None; None] V16) [0] [push16] bs) /\
  forall s r, vrun (product_phase [None; None] [push16] [] [Arbitrary] [0] 1 bs) [] [s; r] = Ok (([None; None], []), [], []).
Proof.
  cbn zeta. split; [|split].
  - split; [intros [|[|[|]]] o E; discriminate|]. split; [intros [|[|[|]]] o E; discriminate|]. split; [reflexivity|]. split; [intros f [<-|[]] E; discriminate|intros f id x [<-|[]] E; discriminate].
  - vm_compute. discriminate.
  - reflexivity.
Qed.

(** Nor is a boundary of a channel that no table ever uses: the result is that without the boundary. *)
Theorem unused_channel_ignored L (fs : list (flush (TF L))) products bs b s perms :
  (forall f, In f fs -> fl_channel (TF L) f <> bd_channel (TF L) b) ->
  verify_channels_balance fs products (b :: bs) s perms = verify_channels_balance fs products bs s perms.
Proof.
  intros H. unfold verify_channels_balance. destruct (negb _); [reflexivity|]. apply balance_ignores. intros [f p] Hp. cbn [fst filter].
  apply in_combine_l in Hp. specialize (H f Hp). destruct (Nat.eqb_spec (bd_channel (TF L) b) (fl_channel (TF L) f)) as [E|E]; [congruence|reflexivity].
Qed.

(** Tuples of different widths: [a] is mixed to the same value as [a; 0]. *)
Lemma widths_run L (a s r : TF L) :
  let f := mkFlush (TF L) 0 0 [Oracle (TF L) 0; Const (TF L) f0] 0 Pull [] 1%N in let b := mkBoundary (TF L) [a] 0 Push 1%N in
  exists lv off, off = r /\
  vrun (product_phase [Some (mkOracle 0 2 Committed)] [f] [] [Fixed 0] [1] 1 [b]) [(r + a)%F] [s; r] =
    Ok (([Some (mkOracle 0 2 Committed); Some (mkOracle 0 lv (LinearCombination 0 off [(0, f1)]))], [(1, [], (r + a)%F)]), [], []).
Proof.
  cbn zeta. eexists. exists (r + (0 * (1 * s) + 0))%F. split; [apply (zero_mixes L)|]. cbn -[verify_channels_balance TF fadd fmul f1 f0].
  replace (verify_channels_balance _ _ _ _ _) with (Ok tt); [reflexivity|]. unfold verify_channels_balance. cbn -[TF fadd fmul f1 f0 feqb].
  match goal with |- context [feqb ?u ?v] => assert (E : u = v) by apply (zero_mixes2 L) end. rewrite E, feqb_refl. reflexivity.
Qed.

Definition os1 : oset 2 := [Some (mkOracle 0 2 Committed)].
Definition V1 : values 2 := fun _ _ => el 4.
Definition pull1 : flush X16 := fl16 Pull [Oracle X16 0; Const X16 f0] [].
Definition push1 : boundary X16 := bd16 Push [el 4].
Theorem widths_refuted :
  phase_ok 2 os1 V1 [pull1] [Fixed 0] [1] /\
  let es := events X16 (wit 2 os1 V1) [1] [pull1] [push1] in
  sent X16 Push 0 [el 4] es <> sent X16 Pull 0 [el 4] es /\
  forall s r, exists tape out, vrun (product_phase os1 [pull1] [] [Fixed 0] [1] 1 [push1]) tape [s; r] = Ok (out, [], []) /\ accepts 2 os1 V1 out.
Proof.
  split; [|split].
  - split; [intros [|[|]] o E; cbn in E; inversion E; exact I|]. split; [intros [|[|]] o E; cbn in E; inversion E; subst; intros; exact I|]. split; [reflexivity|]. split.
    + intros f [<-|[]] _. exists 1. split; [reflexivity|]. intros id [<-|[]]; eexists; split; reflexivity.
    + intros f id x [<-|[]] _ [].
  - vm_compute. discriminate.
  - intros s r. destruct (widths_run 2 (el 4) s r) as (lv & off & Eo & Ev). exists [(r + el 4)%F]. eexists. split; [exact Ev|]. subst off.
    exists (fun id x => if (id =? 0)%nat then el 4 else (r + el 4)%F). split; [|split].
    + intros [|[|[|]]] o E; cbn in E; inversion E; subst; intros x Hx; [exact I|]. cbn [o_variant defined_at fold_right fst snd Nat.eqb]. apply (zero_mixes3 2).
    + intros [|[|]] o E; cbn in E; inversion E; subst; intros x Hx. reflexivity.
    + constructor; [|constructor]. cbn [fst snd Nat.eqb]. apply (mle_nil X16).
Qed.
