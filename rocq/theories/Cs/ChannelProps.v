(** C45: validation accepts exactly balanced channels. *)
Require Import Coq.ZArith.ZArith Coq.Arith.Arith Coq.Lists.List Coq.Bool.Bool Lia.
From Verif Require Import Base.Fld Base.Lists Base.Sums Field.Examples Cs.ChannelModel.
Import ListNotations.
Local Open Scope nat_scope.

(** *** Wrapping arithmetic *)
Lemma wrap64_eqm a : exists q, (wrap64 a = a + q * 2 ^ 64)%Z.
Proof. unfold wrap64. exists (- ((a + 2 ^ 63) / 2 ^ 64))%Z. pose proof (Z.div_mod (a + 2 ^ 63) (2 ^ 64)). lia. Qed.
Lemma wrap64_eq a b : (exists q, a = b + q * 2 ^ 64)%Z -> wrap64 a = wrap64 b.
Proof. intros [q ->]. unfold wrap64. replace (b + q * 2 ^ 64 + 2 ^ 63)%Z with (b + 2 ^ 63 + q * 2 ^ 64)%Z by lia. now rewrite Z.mod_add. Qed.
Lemma wrap64_zero a : wrap64 a = 0%Z <-> (a mod 2 ^ 64 = 0)%Z.
Proof.
  destruct (wrap64_eqm a) as [q E]. split; intros H.
  - replace a with ((- q) * 2 ^ 64)%Z by lia. now apply Z.mod_mul.
  - apply Z.mod_divide in H; [|lia]. destruct H as [k ->]. unfold wrap64. rewrite Z.add_comm, Z.mod_add by lia. rewrite Z.mod_small; lia.
Qed.
Lemma wrap64_id a : in_i64 a = true -> wrap64 a = a.
Proof. unfold in_i64, wrap64. intros H. apply andb_prop in H. destruct H as [H1 H2]. apply Z.leb_le in H1. apply Z.ltb_lt in H2. rewrite Z.mod_small; lia. Qed.

Section Props.
  Variable F : field.
  Notation oracle_or_const := (oracle_or_const F).
  Notation flush := (flush F).
  Notation boundary := (boundary F).
  Notation witness := (witness F).
  Notation channel := (channel F).

  (** *** Specification: the tuples sent over channels *)
  Record event := mkEvent { ev_channel : nat; ev_dir : direction; ev_mult : N; ev_values : list F }.
  Definition cell (w : witness) (id i : nat) : F := match w id with Some p => mp_eval F p i | None => f0 end.
  Definition tuple (w : witness) (f : flush) (i : nat) : list F :=
    map (fun o => match o with Oracle _ id => cell w id i | Const _ b => b end) (fl_oracles F f).
  Definition selected (w : witness) (f : flush) (i : nat) : bool := forallb (fun s => negb (feqb (cell w s i) f0)) (fl_selectors F f).
  Definition flush_events (w : witness) (table_sizes : list nat) (f : flush) : list event :=
    map (fun i => mkEvent (fl_channel F f) (fl_dir F f) (fl_multiplicity F f) (tuple w f i))
      (filter (selected w f) (seq 0 (nth (fl_table F f) table_sizes 0 * 2 ^ fl_log_values_per_row F f))).
  Definition boundary_event (b : boundary) : event := mkEvent (bd_channel F b) (bd_dir F b) (bd_multiplicity F b) (bd_values F b).
  Definition events (w : witness) (table_sizes : list nat) (flushes : list flush) (boundaries : list boundary) : list event :=
    map boundary_event boundaries ++ flat_map (flush_events w table_sizes) flushes.

  (** How often tuple [x] goes over channel [c] in direction [d], counted with multiplicities. *)
  Definition key_dec (x y : list F) : {x = y} + {x <> y}.
  Proof. apply list_eq_dec. intros a b. destruct (feqb a b) eqn:E; [left|right]. - now apply (f_eqb F). - intros ->. now rewrite feqb_refl in E. Defined.
  Definition dir_eqb (a b : direction) : bool := match a, b with Push, Push | Pull, Pull => true | _, _ => false end.
  Definition hits (c : nat) (x : list F) (e : event) : bool := (ev_channel e =? c) && (if key_dec (ev_values e) x then true else false).
  Fixpoint sent (d : direction) (c : nat) (x : list F) (es : list event) : Z :=
    match es with [] => 0%Z | e :: r => ((if dir_eqb (ev_dir e) d && hits c x e then Z.of_N (ev_mult e) else 0) + sent d c x r)%Z end.

  (** A flush is well-formed if its columns and selectors exist, have one common number of variables and cover the table;
      with no column that number is zero.  Flushes of empty tables are always well-formed. *)
  Definition column (o : oracle_or_const) : list nat := match o with Oracle _ id => [id] | Const _ _ => [] end.
  Definition flush_ok (w : witness) (table_sizes : list nat) (f : flush) : Prop :=
    exists size, nth_error table_sizes (fl_table F f) = Some size /\
    (size = 0 \/ exists n, (forall id, In id (flat_map column (fl_oracles F f) ++ fl_selectors F f) -> exists p, w id = Some p /\ mp_n_vars F p = n) /\
       (flat_map column (fl_oracles F f) = [] -> n = 0) /\ size * 2 ^ fl_log_values_per_row F f <= 2 ^ n).
  (** All tuples of one channel have the same width. *)
  Definition one_width (es : list event) : Prop := forall e e', In e es -> In e' es -> ev_channel e = ev_channel e' -> length (ev_values e) = length (ev_values e').

  (** *** One channel *)
  Lemma key_eqb_spec x : forall y, key_eqb F x y = true <-> x = y.
  Proof.
    induction x as [|a x IH]; intros [|b y]; cbn; try (split; congruence). rewrite andb_true_iff, IH. split.
    - intros [E ->]. apply (f_eqb F) in E. now subst.
    - injection 1 as -> ->. now rewrite feqb_refl.
  Qed.
  Fixpoint getz (k : list F) (m : list (list F * Z)) : Z := match m with [] => 0%Z | (k', z) :: m => if key_eqb F k' k then z else getz k m end.
  Lemma getz_out k m : ~ In k (map fst m) -> getz k m = 0%Z.
  Proof.
    induction m as [|[k' z] m IH]; cbn; [auto|]. intros N. destruct (key_eqb F k' k) eqn:E; [exfalso; apply N; left; now apply key_eqb_spec|]. apply IH. tauto.
  Qed.
  Lemma getz_in k z m : NoDup (map fst m) -> In (k, z) m -> getz k m = z.
  Proof.
    induction m as [|[k' z'] m IH]; cbn; [tauto|]. intros ND [E|I].
    - injection E as -> ->. now rewrite (proj2 (key_eqb_spec k k) eq_refl).
    - inversion ND as [|? ? N ND']; subst. destruct (key_eqb F k' k) eqn:E; [|auto]. apply key_eqb_spec in E. subst. exfalso. apply N. apply in_map_iff. exists (k, z). auto.
  Qed.
  Lemma balanced_spec w m : NoDup (map fst m) -> (is_balanced F (mkChannel F w m) = true <-> forall k, getz k m = 0%Z).
  Proof.
    intros ND. unfold is_balanced. cbn [ch_mult]. rewrite forallb_forall. split.
    - intros H k. destruct (in_dec key_dec k (map fst m)) as [I|N]; [|now apply getz_out]. apply in_map_iff in I. destruct I as ([k' z] & E & I). cbn in E. subst k'.
      rewrite (getz_in k z m ND I). specialize (H _ I). now apply Z.eqb_eq.
    - intros H [k z] I. cbn. apply Z.eqb_eq. rewrite <- (getz_in k z m ND I). apply H.
  Qed.
  Lemma add_entry_spec k d m : NoDup (map fst m) -> exists m', add_entry F false k d m = Ok m' /\ NoDup (map fst m') /\
    (forall k', In k' (map fst m') -> In k' (map fst m) \/ k' = k) /\
    (getz k m' = wrap64 (getz k m + d)) /\ (forall k', k' <> k -> getz k' m' = getz k' m).
  Proof.
    induction m as [|[k0 z] m IH]; intros ND; cbn [add_entry]; unfold arith64; cbn [andb rbind].
    - eexists. split; [reflexivity|]. cbn. rewrite (proj2 (key_eqb_spec k k) eq_refl). repeat split; auto.
      + repeat constructor. auto.
      + intros k' [->|[]]. auto.
      + intros k' N. destruct (key_eqb F k k') eqn:E; auto. apply key_eqb_spec in E. congruence.
    - inversion ND as [|? ? N ND']; subst. destruct (key_eqb F k0 k) eqn:E.
      + apply key_eqb_spec in E. subst k0. eexists. split; [reflexivity|]. cbn. rewrite (proj2 (key_eqb_spec k k) eq_refl). repeat split; auto.
        intros k' N'. destruct (key_eqb F k k') eqn:E; auto. apply key_eqb_spec in E. congruence.
      + destruct (IH ND') as (m' & -> & ND2 & KS & G1 & G2). cbn [rbind]. eexists. split; [reflexivity|]. cbn. rewrite E. repeat split; auto.
        * constructor; auto. intros I. apply KS in I. destruct I as [I| ->]; [auto|]. rewrite (proj2 (key_eqb_spec k k) eq_refl) in E. discriminate.
        * intros k' [->|I]; auto. apply KS in I. tauto.
        * intros k' N'. destruct (key_eqb F k0 k'); auto.
  Qed.

  (** *** Running a list of events *)
  Definition event_step (checks : bool) (channels : list channel) (e : event) : res (list channel) := flush_to F checks channels (ev_channel e) (ev_dir e) (ev_mult e) (ev_values e).
  Definition net (c : nat) (x : list F) (es : list event) : Z := (sent Push c x es - sent Pull c x es)%Z.
  Definition inv (n : nat) (es : list event) (chs : list channel) : Prop :=
    length chs = n /\ (forall e, In e es -> ev_channel e < n) /\ one_width es /\ forall c ch, nth_error chs c = Some ch ->
      NoDup (map fst (ch_mult F ch)) /\ (forall x, getz x (ch_mult F ch) = wrap64 (net c x es)) /\
      (forall e, In e es -> ev_channel e = c -> ch_width F ch = Some (length (ev_values e))) /\
      (forall w, ch_width F ch = Some w -> exists e, In e es /\ ev_channel e = c /\ length (ev_values e) = w).

  Lemma sent_snoc d c x es e : sent d c x (es ++ [e]) = (sent d c x es + (if dir_eqb (ev_dir e) d && hits c x e then Z.of_N (ev_mult e) else 0))%Z.
  Proof. induction es as [|e0 es IH]; cbn [sent app]; [lia|]. rewrite IH. lia. Qed.
  Definition signed (e : event) : Z := (match ev_dir e with Push => Z.of_N (ev_mult e) | Pull => - Z.of_N (ev_mult e) end)%Z.
  Lemma net_snoc c x es e : net c x (es ++ [e]) = (net c x es + (if hits c x e then signed e else 0))%Z.
  Proof. unfold net, signed. rewrite !sent_snoc. destruct (ev_dir e); cbn [dir_eqb andb]; destruct (hits c x e); lia. Qed.

  Lemma inv_init n : inv n [] (repeat (channel_new F) n).
  Proof.
    split; [apply repeat_length|]. split; [intros e []|]. split; [intros e e' []|]. intros c ch E. apply nth_error_In, repeat_spec in E. subst ch. cbn.
    split; [constructor|]. split; [reflexivity|]. split; [intros e []|]. discriminate.
  Qed.

  Lemma event_step_spec n es chs e : inv n es chs ->
    (ev_channel e < n -> one_width (es ++ [e]) -> exists chs', event_step false chs e = Ok chs' /\ inv n (es ++ [e]) chs') /\
    (ev_channel e < n -> ~ one_width (es ++ [e]) -> event_step false chs e = Err) /\
    (n <= ev_channel e -> event_step false chs e = Panic).
  Proof.
    intros (LC & HE & OW & HC). unfold event_step, flush_to. split; [|split].
    - intros Hc OW'. destruct (nth_error_ex chs (ev_channel e) ltac:(lia)) as [ch Ech]. rewrite Ech. cbn [of_opt rbind].
      destruct (HC _ _ Ech) as (ND & GZ & W1 & W2). unfold channel_flush.
      assert (EW : match ch_width F ch with None => Ok (length (ev_values e)) | Some w => if negb (w =? length (ev_values e)) then Err else Ok w end = Ok (length (ev_values e))).
      { destruct (ch_width F ch) as [w|] eqn:Ew; [|reflexivity]. destruct (W2 w eq_refl) as (e1 & I1 & C1 & L1).
        assert (w = length (ev_values e)). { rewrite <- L1. apply OW'; auto using in_or_app, in_eq. }
        subst w. now rewrite H, Nat.eqb_refl. }
      rewrite EW. cbn [rbind]. unfold arith64 at 1. cbn [andb rbind]. set (d := wrap64 _).
      destruct (add_entry_spec (ev_values e) d (ch_mult F ch) ND) as (m' & -> & ND' & _ & G1 & G2). cbn [rbind]. eexists. split; [reflexivity|].
      split; [now rewrite upd_length|]. split; [intros e1 I; apply in_app_or in I; destruct I as [I|[<-|[]]]; auto|]. split; [auto|].
      intros c ch1 E1. destruct (Nat.eq_dec c (ev_channel e)) as [->|Nc].
      + rewrite nth_error_upd_eq in E1 by lia. injection E1 as <-. cbn [ch_mult ch_width]. split; [auto|]. split; [|split].
        * intros x. rewrite net_snoc. unfold hits. rewrite Nat.eqb_refl. cbn [andb]. destruct (key_dec (ev_values e) x) as [<-|Nx].
          -- rewrite G1, GZ. apply wrap64_eq. unfold d, as_i64, signed.
             destruct (wrap64_eqm (net (ev_channel e) (ev_values e) es)) as [q1 ->]. destruct (wrap64_eqm (Z.of_N (ev_mult e))) as [q2 ->]. destruct (ev_dir e).
             ++ destruct (wrap64_eqm ((Z.of_N (ev_mult e) + q2 * 2 ^ 64) * 1)) as [q3 ->]. exists (q1 + q2 + q3)%Z. lia.
             ++ destruct (wrap64_eqm ((Z.of_N (ev_mult e) + q2 * 2 ^ 64) * -1)) as [q3 ->]. exists (q1 - q2 + q3)%Z. lia.
          -- rewrite G2 by congruence. rewrite GZ. f_equal. lia.
        * intros e1 I1 C1. f_equal. apply OW'; auto using in_or_app, in_eq.
        * intros w Ew. injection Ew as <-. exists e. split; [apply in_or_app; right; now left|]. auto.
      + rewrite nth_error_upd_ne in E1 by congruence. destruct (HC _ _ E1) as (ND1 & GZ1 & W11 & W12). split; [auto|]. split; [|split].
        * intros x. rewrite net_snoc. unfold hits. destruct (Nat.eqb_spec (ev_channel e) c); [congruence|]. cbn [andb]. now rewrite Z.add_0_r.
        * intros e1 I1 C1. apply in_app_or in I1. destruct I1 as [I1|[<-|[]]]; [auto|congruence].
        * intros w Ew. destruct (W12 w Ew) as (e1 & I1 & ? & ?). exists e1. split; [apply in_or_app; auto|]. auto.
    - intros Hc NW. destruct (nth_error_ex chs (ev_channel e) ltac:(lia)) as [ch Ech]. rewrite Ech. cbn [of_opt rbind].
      destruct (HC _ _ Ech) as (ND & GZ & W1 & W2). unfold channel_flush.
      assert (D : (exists w, ch_width F ch = Some w /\ w <> length (ev_values e)) \/ one_width (es ++ [e])).
      { destruct (ch_width F ch) as [w|] eqn:Ew.
        - destruct (Nat.eq_dec w (length (ev_values e))) as [E|N]; [right|left; eauto]. subst w.
          assert (G : forall e1, In e1 es -> ev_channel e1 = ev_channel e -> length (ev_values e1) = length (ev_values e)).
          { intros e1 I1 C1. specialize (W1 e1 I1 C1). now injection W1. }
          intros e1 e2 I1 I2 C. apply in_app_or in I1. apply in_app_or in I2. destruct I1 as [I1|[<-|[]]], I2 as [I2|[<-|[]]]; auto. symmetry. auto.
        - right. assert (G : forall e1, In e1 es -> ev_channel e1 <> ev_channel e) by (intros e1 I1 C1; specialize (W1 e1 I1 C1); discriminate).
          intros e1 e2 I1 I2 C. apply in_app_or in I1. apply in_app_or in I2. destruct I1 as [I1|[<-|[]]], I2 as [I2|[<-|[]]]; auto; exfalso; eapply G; eauto. }
      destruct D as [(w & -> & N)|D]; [|contradiction]. destruct (Nat.eqb_spec w (length (ev_values e))); [contradiction|]. reflexivity.
    - intros H. rewrite (proj2 (nth_error_None chs _)) by lia. reflexivity.
  Qed.

  Lemma one_width_app a b : one_width (a ++ b) -> one_width a.
  Proof. intros H e e' I I'. apply H; apply in_or_app; auto. Qed.

  Lemma one_width_dec (l : list event) : one_width l \/ ~ one_width l.
  Proof.
    induction l as [|a l IH]; [left; intros ? ? []|].
    destruct IH as [IH|IH]; [|right; intros H; apply IH; intros x y Ix Iy; apply H; now right].
    assert (D : Forall (fun x => ev_channel x = ev_channel a -> length (ev_values x) = length (ev_values a)) l \/ ~ Forall (fun x => ev_channel x = ev_channel a -> length (ev_values x) = length (ev_values a)) l).
    { clear. induction l as [|x l [IH|IH]]; [left; constructor| |right; intros H; inversion H; auto].
      destruct (Nat.eq_dec (ev_channel x) (ev_channel a)), (Nat.eq_dec (length (ev_values x)) (length (ev_values a))); try (left; constructor; tauto).
      right. intros H. inversion H; auto. }
    destruct D as [D|D].
    - left. rewrite Forall_forall in D. intros x y [<-|Ix] [<-|Iy] C; auto. symmetry. auto.
    - right. intros H. apply D. apply Forall_forall. intros x Ix C. apply H; [now right|now left|auto].
  Qed.

  Lemma events_spec n es : forall done chs, inv n done chs -> (forall e, In e es -> ev_channel e < n) ->
    (one_width (done ++ es) -> exists chs', fold_r (event_step false) es chs = Ok chs' /\ inv n (done ++ es) chs') /\
    (~ one_width (done ++ es) -> fold_r (event_step false) es chs = Err).
  Proof.
    induction es as [|e es IH]; intros done chs I HN; cbn [fold_r].
    - rewrite app_nil_r. split; [eauto|]. intros N. exfalso. apply N. apply I.
    - destruct (event_step_spec n done chs e I) as (S1 & S2 & _). replace (done ++ e :: es) with ((done ++ [e]) ++ es) by now rewrite <- app_assoc.
      assert (He : ev_channel e < n) by (apply HN; now left). assert (HN' : forall e, In e es -> ev_channel e < n) by (intros; apply HN; now right). split.
      + intros OW. destruct (S1 He (one_width_app _ _ OW)) as (chs' & -> & I'). cbn [rbind]. now apply (IH _ _ I').
      + intros NW. assert (D : one_width (done ++ [e]) \/ ~ one_width (done ++ [e])).
        { apply one_width_dec. }
        destruct D as [D|D]; [|now rewrite (S2 He D)]. destruct (S1 He D) as (chs' & -> & I'). cbn [rbind]. now apply (IH _ _ I').
  Qed.

  Lemma fold_r_app {A S} (step : S -> A -> res S) a b s : fold_r step (a ++ b) s = rbind (fold_r step a s) (fold_r step b).
  Proof. revert s. induction a as [|x a IH]; intros s; cbn [fold_r app]; [reflexivity|]. destruct (step s x); cbn [rbind]; auto. Qed.

  (** *** One flush *)
  Definition polyof (w : witness) (id : nat) : mpoly F := match w id with Some p => p | None => mkPoly F 0 (fun _ => f0) end.
  Lemma collect_get w ids ps : collect_r (get_multilin_poly F w) ids = Ok ps <-> (ps = map (polyof w) ids /\ forall id, In id ids -> exists p, w id = Some p).
  Proof.
    revert ps. induction ids as [|id ids IH]; intros ps; cbn [collect_r map].
    - split; [injection 1 as <-; split; [auto|intros ? []]|]. intros [-> _]. reflexivity.
    - unfold get_multilin_poly at 1. unfold polyof at 1. destruct (w id) as [p|] eqn:E; cbn [rbind].
      + destruct (collect_r _ ids) as [r| |] eqn:ER; cbn [rbind].
        * destruct (proj1 (IH r) eq_refl) as [-> H]. split; [injection 1 as <-; split; [auto|intros i [<-|I]; eauto]|]. intros [-> _]. reflexivity.
        * split; [discriminate|]. intros [-> H]. exfalso. assert (X : Err = Ok (map (polyof w) ids)); [|discriminate]. apply IH. split; auto. intros; apply H; now right.
        * split; [discriminate|]. intros [-> H]. exfalso. assert (X : Panic = Ok (map (polyof w) ids)); [|discriminate]. apply IH. split; auto. intros; apply H; now right.
      + split; [discriminate|]. intros [_ H]. destruct (H id (or_introl eq_refl)) as [p Ep]. congruence.
  Qed.
  Lemma cell_polyof w id i : cell w id i = mp_eval F (polyof w id) i.
  Proof. unfold cell, polyof. now destruct (w id). Qed.
  Lemma selector_off_spec w n i sels : i < 2 ^ n -> (forall id, In id sels -> mp_n_vars F (polyof w id) = n) ->
    selector_off F (map (polyof w) sels) i = Ok (negb (forallb (fun s => negb (feqb (cell w s i) f0)) sels)).
  Proof.
    intros Hi. induction sels as [|id sels IH]; intros H; cbn [map selector_off forallb]; [reflexivity|]. unfold evaluate_on_hypercube. rewrite (H id (or_introl eq_refl)).
    destruct (Nat.ltb_spec i (2 ^ n)); [|lia]. rewrite cell_polyof. destruct (feqb _ f0); [reflexivity|]. cbn [negb andb]. apply IH. intros; apply H; now right.
  Qed.
  Lemma row_values_spec w n i os : i < 2 ^ n -> (forall id, In id (flat_map column os) -> exists p, w id = Some p /\ mp_n_vars F p = n) ->
    row_values F w os i = Ok (map (fun o => match o with Oracle _ id => cell w id i | Const _ b => b end) os).
  Proof.
    intros Hi. unfold row_values. induction os as [|o os IH]; intros H; cbn [map collect_r]; [reflexivity|]. destruct o as [id|b].
    - destruct (H id (or_introl eq_refl)) as (p & Ep & En). unfold get_multilin_poly at 1, cell at 1. rewrite Ep. unfold evaluate_on_hypercube at 1. rewrite En.
      destruct (Nat.ltb_spec i (2 ^ n)); [|lia]. cbn [rbind]. rewrite IH; [reflexivity|]. intros; apply H; now right.
    - cbn [rbind]. rewrite IH; [reflexivity|]. exact H.
  Qed.
  Lemma rows_spec checks w f n l : (forall id, In id (flat_map column (fl_oracles F f) ++ fl_selectors F f) -> exists p, w id = Some p /\ mp_n_vars F p = n) ->
    Forall (fun i => i < 2 ^ n) l -> forall chs,
    fold_r (row_step F checks w f (map (polyof w) (fl_selectors F f))) l chs =
    fold_r (event_step checks) (map (fun i => mkEvent (fl_channel F f) (fl_dir F f) (fl_multiplicity F f) (tuple w f i)) (filter (selected w f) l)) chs.
  Proof.
    intros HI. induction l as [|i l IH]; intros FA chs; cbn [fold_r filter map]; [reflexivity|]. inversion FA as [|? ? Hi FA']; subst.
    unfold row_step at 1. rewrite (selector_off_spec w n i); [|auto|].
    2:{ intros id I. destruct (HI id) as (p & Ep & En); [apply in_or_app; auto|]. unfold polyof. now rewrite Ep. }
    cbn [rbind]. fold (selected w f i). destruct (selected w f i) eqn:ES; cbn [negb map fold_r].
    - rewrite (row_values_spec w n i); [|auto|intros id I; apply HI; apply in_or_app; auto]. cbn [rbind]. fold (tuple w f i). unfold event_step at 1. cbn [ev_channel ev_dir ev_mult ev_values].
      destruct (flush_to _ _ _ _ _ _ _); cbn [rbind]; auto.
    - cbn [rbind]. now apply IH.
  Qed.
  Lemma oracle_ids_eq os : oracle_ids F os = flat_map column os. Proof. reflexivity. Qed.

  Lemma flush_step_ok checks w ts maxc chs f : fl_channel F f <= maxc -> flush_ok w ts f ->
    flush_step F checks w ts maxc chs f = fold_r (event_step checks) (flush_events w ts f) chs.
  Proof.
    intros HC (size & ES & H). unfold flush_step, flush_events. destruct (Nat.ltb_spec maxc (fl_channel F f)); [lia|]. rewrite ES. cbn [of_opt rbind].
    rewrite (nth_error_nth ts _ 0 ES). destruct (Nat.eqb_spec size 0) as [->|N]; [reflexivity|]. destruct H as [->|(n & HI & HZ & HR)]; [congruence|].
    rewrite oracle_ids_eq. set (ids := flat_map column (fl_oracles F f)) in *.
    rewrite (proj2 (collect_get w ids (map (polyof w) ids))); [|split; [auto|intros id I; destruct (HI id) as (p & ? & ?); [apply in_or_app; auto|eauto]]]. cbn [rbind].
    rewrite (proj2 (collect_get w (fl_selectors F f) (map (polyof w) (fl_selectors F f)))); [|split; [auto|intros id I; destruct (HI id) as (p & ? & ?); [apply in_or_app; auto|eauto]]]. cbn [rbind].
    assert (PN : forall id, In id (ids ++ fl_selectors F f) -> mp_n_vars F (polyof w id) = n). { intros id I. destruct (HI id I) as (p & Ep & En). unfold polyof. now rewrite Ep. }
    assert (EN : match map (polyof w) ids with [] => 0 | p :: _ => mp_n_vars F p end = n).
    { destruct ids as [|id ids]; cbn [map]; [symmetry; now apply HZ|]. apply PN. now left. }
    rewrite EN. assert (FB : forall l, incl l (ids ++ fl_selectors F f) -> forallb (fun p => mp_n_vars F p =? n) (map (polyof w) l) = true).
    { intros l I. apply forallb_forall. intros p Hp. apply in_map_iff in Hp. destruct Hp as (id & <- & Hid). apply Nat.eqb_eq. apply PN. now apply I. }
    rewrite !FB by (intros x; intros; apply in_or_app; auto). cbn [negb]. destruct (Nat.leb_spec (size * 2 ^ fl_log_values_per_row F f) (2 ^ n)); [|lia]. cbn [negb].
    apply (rows_spec checks w f n); [auto|]. apply Forall_forall. intros i I. apply in_seq in I. lia.
  Qed.
  Lemma flush_step_bad checks w ts maxc chs f chs' : flush_step F checks w ts maxc chs f = Ok chs' -> fl_channel F f <= maxc /\ flush_ok w ts f.
  Proof.
    unfold flush_step. destruct (Nat.ltb_spec maxc (fl_channel F f)); [discriminate|]. intros H0. split; [auto|]. unfold flush_ok.
    destruct (nth_error ts (fl_table F f)) as [size|] eqn:ES; cbn [of_opt rbind] in H0; [|discriminate]. exists size. split; [auto|].
    destruct (Nat.eqb_spec size 0) as [->|N]; [auto|]. right. rewrite oracle_ids_eq in H0. set (ids := flat_map column (fl_oracles F f)) in *.
    destruct (collect_r _ ids) as [ps| |] eqn:E1; cbn [rbind] in H0; try discriminate. apply collect_get in E1. destruct E1 as [-> A1].
    destruct (collect_r _ (fl_selectors F f)) as [ps| |] eqn:E2; cbn [rbind] in H0; try discriminate. apply collect_get in E2. destruct E2 as [-> A2].
    set (n := match map (polyof w) ids with [] => 0 | p :: _ => mp_n_vars F p end) in *.
    destruct (forallb _ (map (polyof w) ids)) eqn:B1; [|discriminate]. cbn [negb] in H0.
    destruct (forallb _ (map (polyof w) (fl_selectors F f))) eqn:B2; cbn [negb] in H0; [|now destruct (map (polyof w) ids)].
    destruct (Nat.leb_spec (size * 2 ^ fl_log_values_per_row F f) (2 ^ n)); [|discriminate]. exists n. split; [|split; [|auto]].
    - assert (G : forall l id, In id l -> (forall id, In id l -> exists p, w id = Some p) -> forallb (fun p => mp_n_vars F p =? n) (map (polyof w) l) = true -> exists p, w id = Some p /\ mp_n_vars F p = n).
      { intros l id I HE HB. destruct (HE id I) as [p Ep]. exists p. split; [auto|]. rewrite forallb_forall in HB. specialize (HB (polyof w id) (in_map _ _ _ I)). apply Nat.eqb_eq in HB.
        unfold polyof in HB. now rewrite Ep in HB. }
      intros id I. apply in_app_or in I. destruct I as [I|I]; eapply G; eauto.
    - intros E. unfold n. now rewrite E.
  Qed.

  Lemma boundary_step_ok checks maxc chs b : bd_channel F b <= maxc -> boundary_step F checks maxc chs b = event_step checks chs (boundary_event b).
  Proof. intros H. unfold boundary_step. destruct (Nat.ltb_spec maxc (bd_channel F b)); [lia|]. reflexivity. Qed.

  Lemma run_boundaries checks maxc bs : forall chs, (forall b, In b bs -> bd_channel F b <= maxc) ->
    fold_r (boundary_step F checks maxc) bs chs = fold_r (event_step checks) (map boundary_event bs) chs.
  Proof.
    induction bs as [|b bs IH]; intros chs H; cbn [fold_r map]; [reflexivity|]. rewrite boundary_step_ok by (apply H; now left).
    destruct (event_step checks chs (boundary_event b)); cbn [rbind]; auto. apply IH. intros; apply H; now right.
  Qed.
  Lemma run_flushes checks w ts maxc fs : forall chs, (forall f, In f fs -> fl_channel F f <= maxc /\ flush_ok w ts f) ->
    fold_r (flush_step F checks w ts maxc) fs chs = fold_r (event_step checks) (flat_map (flush_events w ts) fs) chs.
  Proof.
    induction fs as [|f fs IH]; intros chs H; cbn [fold_r flat_map]; [reflexivity|]. destruct (H f (or_introl eq_refl)) as [H1 H2].
    rewrite flush_step_ok by auto. rewrite fold_r_app. destruct (fold_r (event_step checks) (flush_events w ts f) chs); cbn [rbind]; auto. apply IH. intros; apply H; now right.
  Qed.

  (** The inputs make sense: channel ids are in range, flushes are well-formed. *)
  Definition inputs_ok (w : witness) (fs : list flush) (bs : list boundary) (ts : list nat) (n : nat) : Prop :=
    (forall b, In b bs -> bd_channel F b < n) /\ (forall f, In f fs -> fl_channel F f < n /\ flush_ok w ts f).

  Lemma validate_run checks w fs bs ts n : inputs_ok w fs bs ts n ->
    validate_witness F checks w fs bs ts n = rbind (fold_r (event_step checks) (events w ts fs bs) (repeat (channel_new F) n)) (fun chs => if forallb (is_balanced F) chs then Ok tt else Err).
  Proof.
    intros [HB HF]. unfold validate_witness, events. rewrite fold_r_app, run_boundaries by (intros b I; specialize (HB b I); lia).
    destruct (fold_r (event_step checks) (map boundary_event bs) _) as [chs| |]; cbn [rbind]; auto. rewrite run_flushes; [reflexivity|].
    intros f I. destruct (HF f I). split; [lia|auto].
  Qed.
  Lemma events_channel w fs bs ts n : inputs_ok w fs bs ts n -> forall e, In e (events w ts fs bs) -> ev_channel e < n.
  Proof.
    intros [HB HF] e I. unfold events in I. apply in_app_or in I. destruct I as [I|I].
    - apply in_map_iff in I. destruct I as (b & <- & I). cbn. auto.
    - apply in_flat_map in I. destruct I as (f & I & Ie). unfold flush_events in Ie. apply in_map_iff in Ie. destruct Ie as (i & <- & _). cbn. now apply HF.
  Qed.

  Lemma balanced_all n es chs : inv n es chs -> (forallb (is_balanced F) chs = true <-> forall c x, c < n -> ((sent Push c x es - sent Pull c x es) mod 2 ^ 64 = 0)%Z).
  Proof.
    intros (LC & _ & _ & HC). rewrite forallb_forall. split.
    - intros H c x Hc. destruct (nth_error_ex chs c ltac:(lia)) as [ch E]. destruct (HC c ch E) as (ND & GZ & _). apply wrap64_zero. fold (net c x es). rewrite <- GZ.
      apply (balanced_spec (ch_width F ch)); auto. destruct ch as [wd m]. apply H. eapply nth_error_In; eauto.
    - intros H ch I. apply In_nth_error in I. destruct I as [c E]. destruct (HC c ch E) as (ND & GZ & _). destruct ch as [wd m]. apply balanced_spec; auto.
      intros x. cbn [ch_mult] in GZ. rewrite GZ. apply wrap64_zero. apply H. rewrite <- LC. eapply nth_error_lt; eauto.
  Qed.

  (** Validation accepts exactly if the inputs are well-formed, every channel has one width, and for every channel and tuple
      the numbers of pushes and pulls agree modulo 2^64; on well-formed inputs it never panics (release build). *)
  Theorem validate_witness_mod w fs bs ts n : 0 < n ->
    (validate_witness F false w fs bs ts n = Ok tt <->
     inputs_ok w fs bs ts n /\ one_width (events w ts fs bs) /\
     forall c x, c < n -> ((sent Push c x (events w ts fs bs) - sent Pull c x (events w ts fs bs)) mod 2 ^ 64 = 0)%Z) /\
    (inputs_ok w fs bs ts n -> validate_witness F false w fs bs ts n <> Panic).
  Proof.
    intros Hn. assert (IO : validate_witness F false w fs bs ts n = Ok tt -> inputs_ok w fs bs ts n).
    { unfold validate_witness. intros H. destruct (fold_r (boundary_step F false (n - 1)) bs _) as [chs| |] eqn:E1; cbn [rbind] in H; try discriminate.
      destruct (fold_r (flush_step F false w ts (n - 1)) fs chs) as [chs'| |] eqn:E2; cbn [rbind] in H; try discriminate.
      assert (LB : forall bs c0 c1, fold_r (boundary_step F false (n - 1)) bs c0 = Ok c1 -> length c1 = length c0 /\ forall b, In b bs -> bd_channel F b < length c0).
      { clear. induction bs as [|b bs IH]; intros c0 c1 H; cbn [fold_r] in H; [injection H as <-; split; [auto|intros ? []]|].
        destruct (boundary_step F false (n - 1) c0 b) as [c'| |] eqn:E; cbn [rbind] in H; try discriminate. destruct (IH _ _ H) as [L G].
        unfold boundary_step in E. destruct (_ <? _); [discriminate|]. unfold flush_to in E. destruct (nth_error c0 (bd_channel F b)) as [ch|] eqn:En; cbn [of_opt rbind] in E; [|discriminate].
        destruct (channel_flush _ _ _ _ _ _); cbn [rbind] in E; try discriminate. injection E as <-. rewrite upd_length in *. split; [auto|]. intros b' [<-|I]; auto. eapply nth_error_lt; eauto. }
      destruct (LB _ _ _ E1) as [L1 G1]. rewrite repeat_length in *. split; [auto|].
      assert (LF : forall fs c0 c1, fold_r (flush_step F false w ts (n - 1)) fs c0 = Ok c1 -> forall f, In f fs -> fl_channel F f <= n - 1 /\ flush_ok w ts f).
      { clear. induction fs as [|f fs IH]; intros c0 c1 H g; [intros []|]. cbn [fold_r] in H. destruct (flush_step F false w ts (n - 1) c0 f) as [c'| |] eqn:E; cbn [rbind] in H; try discriminate.
        intros [<-|I]; [eapply flush_step_bad; eauto|eapply IH; eauto]. }
      specialize (LF _ _ _ E2). intros f I. destruct (LF f I) as [Hf Ho]. split; [|auto].
      lia. }
    split.
    - split.
      + intros H. specialize (IO H). split; [auto|]. rewrite validate_run in H by auto.
        destruct (events_spec n (events w ts fs bs) [] _ (inv_init n) (events_channel w fs bs ts n IO)) as [S1 S2]. cbn [app] in *.
        destruct (fold_r (event_step false) (events w ts fs bs) (repeat (channel_new F) n)) as [chs| |] eqn:E; cbn [rbind] in H; try discriminate.
        assert (D : one_width (events w ts fs bs)).
        { destruct (one_width_dec (events w ts fs bs)) as [D|D]; [auto|]. specialize (S2 D). discriminate. }
        split; [auto|]. destruct (S1 D) as (chs' & E' & I'). injection E' as <-. destruct (forallb (is_balanced F) chs) eqn:B; [|discriminate]. now apply (balanced_all n _ chs I').
      + intros (IO' & OW & B). rewrite validate_run by auto. destruct (events_spec n (events w ts fs bs) [] _ (inv_init n) (events_channel w fs bs ts n IO')) as [S1 _].
        destruct (S1 OW) as (chs & -> & I'). cbn [rbind app] in *. now rewrite (proj2 (balanced_all n _ chs I') B).
    - intros IO'. rewrite validate_run by auto. destruct (events_spec n (events w ts fs bs) [] _ (inv_init n) (events_channel w fs bs ts n IO')) as [S1 S2]. cbn [app] in *.
      destruct (one_width_dec (events w ts fs bs)) as [D|D].
      + destruct (S1 D) as (chs & -> & _). cbn [rbind]. destruct (forallb _ chs); discriminate.
      + rewrite (S2 D). discriminate.
  Qed.

  (** *** Exact balance, in both build modes, as long as multiplicities do not add up to 2^63 *)
  Fixpoint total (es : list event) : Z := match es with [] => 0%Z | e :: r => (Z.of_N (ev_mult e) + total r)%Z end.
  Lemma total_nonneg es : (0 <= total es)%Z. Proof. induction es; cbn [total]; lia. Qed.
  Lemma total_app a b : total (a ++ b) = (total a + total b)%Z. Proof. induction a; cbn [total app]; lia. Qed.
  Lemma sent_bound d c x es : (0 <= sent d c x es <= total es)%Z.
  Proof. induction es as [|e es IH]; cbn [sent total]; [lia|]. destruct (_ && _); lia. Qed.
  Lemma sent_both c x es : (0 <= sent Push c x es + sent Pull c x es <= total es)%Z.
  Proof. induction es as [|e es IH]; cbn [sent total]; [lia|]. destruct (ev_dir e); cbn [dir_eqb andb]; destruct (hits c x e); lia. Qed.

  Lemma arith64_same z : (- 2 ^ 63 <= z < 2 ^ 63)%Z -> arith64 true z = arith64 false z.
  Proof. intros H. unfold arith64, in_i64. destruct (Z.leb_spec (- 2 ^ 63) z); [|lia]. destruct (Z.ltb_spec z (2 ^ 63)); [|lia]. reflexivity. Qed.
  Lemma add_entry_same k d m : (- 2 ^ 63 <= getz k m + d < 2 ^ 63)%Z -> add_entry F true k d m = add_entry F false k d m.
  Proof.
    induction m as [|[k' z] m IH]; cbn [add_entry getz]; intros H; [now rewrite arith64_same|]. destruct (key_eqb F k' k); [now rewrite arith64_same|]. now rewrite IH.
  Qed.
  Lemma event_step_same n es chs e : inv n es chs -> (total es + Z.of_N (ev_mult e) < 2 ^ 63)%Z -> event_step true chs e = event_step false chs e.
  Proof.
    intros (_ & _ & _ & HC) H. unfold event_step, flush_to. destruct (nth_error chs (ev_channel e)) as [ch|] eqn:E; cbn [of_opt rbind]; [|reflexivity].
    destruct (HC _ _ E) as (_ & GZ & _). unfold channel_flush. destruct (match ch_width F ch with None => _ | Some _ => _ end) as [wd| |]; cbn [rbind]; try reflexivity.
    pose proof (total_nonneg es). pose proof (sent_both (ev_channel e) (ev_values e) es).
    pose proof (sent_bound Push (ev_channel e) (ev_values e) es). pose proof (sent_bound Pull (ev_channel e) (ev_values e) es).
    assert (EA : as_i64 (ev_mult e) = Z.of_N (ev_mult e)) by (unfold as_i64; apply wrap64_id; unfold in_i64; apply andb_true_intro; split; [apply Z.leb_le|apply Z.ltb_lt]; lia).
    rewrite EA. rewrite arith64_same by (destruct (ev_dir e); lia). unfold arith64. cbn [andb rbind]. rewrite add_entry_same; [reflexivity|].
    rewrite GZ. rewrite (wrap64_id (net _ _ es)) by (unfold net, in_i64; apply andb_true_intro; split; [apply Z.leb_le|apply Z.ltb_lt]; lia). unfold net.
    rewrite wrap64_id by (unfold in_i64; apply andb_true_intro; split; [apply Z.leb_le|apply Z.ltb_lt]; destruct (ev_dir e); lia). destruct (ev_dir e); lia.
  Qed.
  Lemma run_same n es : forall done chs, inv n done chs -> (total (done ++ es) < 2 ^ 63)%Z -> (forall e, In e es -> ev_channel e < n) ->
    fold_r (event_step true) es chs = fold_r (event_step false) es chs.
  Proof.
    induction es as [|e es IH]; intros done chs I H HN; cbn [fold_r]; [reflexivity|]. rewrite total_app in H. cbn [total] in H. pose proof (total_nonneg es).
    rewrite (event_step_same n done chs e I) by lia. destruct (event_step_spec n done chs e I) as (S1 & S2 & _). assert (He : ev_channel e < n) by (apply HN; now left).
    destruct (one_width_dec (done ++ [e])) as [D|D]; [|now rewrite (S2 He D)]. destruct (S1 He D) as (chs' & -> & I'). cbn [rbind]. apply (IH _ _ I'); [|intros; apply HN; now right].
    rewrite !total_app. cbn [total]. lia.
  Qed.

  Theorem validate_witness_correct checks w fs bs ts n : 0 < n -> inputs_ok w fs bs ts n -> (total (events w ts fs bs) < 2 ^ 63)%Z ->
    (validate_witness F checks w fs bs ts n = Ok tt <->
     one_width (events w ts fs bs) /\ forall c x, c < n -> sent Push c x (events w ts fs bs) = sent Pull c x (events w ts fs bs)) /\
    validate_witness F checks w fs bs ts n <> Panic.
  Proof.
    intros Hn IO HT. assert (E : validate_witness F checks w fs bs ts n = validate_witness F false w fs bs ts n).
    { destruct checks; [|reflexivity]. rewrite !validate_run by auto. now rewrite (run_same n (events w ts fs bs) [] _ (inv_init n) HT (events_channel w fs bs ts n IO)). }
    rewrite E. destruct (validate_witness_mod w fs bs ts n Hn) as [M1 M2]. split; [|now apply M2]. rewrite M1. split.
    - intros (_ & OW & B). split; [auto|]. intros c x Hc. specialize (B c x Hc). pose proof (sent_bound Push c x (events w ts fs bs)). pose proof (sent_bound Pull c x (events w ts fs bs)).
      apply Z.mod_divide in B; [|lia]. destruct B as [k B]. assert (k = 0)%Z by nia. lia.
    - intros (OW & B). split; [auto|]. split; [auto|]. intros c x Hc. rewrite (B c x Hc), Z.sub_diag. reflexivity.
  Qed.

  (** Beyond that bound the claim fails: multiplicities are cast to signed words, so two pushes can cancel, with or without
      overflow checks. *)
  Theorem two_pushes_balance_refuted checks w x :
    let bs := [mkBoundary F x 0 Push (2 ^ 64 - 1)%N; mkBoundary F x 0 Push 1%N] in
    validate_witness F checks w [] bs [] 1 = Ok tt /\ sent Push 0 x (events w [] [] bs) = (2 ^ 64)%Z /\ sent Pull 0 x (events w [] [] bs) = 0%Z.
  Proof.
    cbv zeta. split; [|split].
    - unfold validate_witness, boundary_step, flush_to, channel_flush. cbn [fold_r bd_channel bd_dir bd_multiplicity bd_values Nat.sub Nat.ltb Nat.leb repeat nth_error of_opt rbind ch_width channel_new ch_mult].
      assert (E1 : arith64 checks (as_i64 (2 ^ 64 - 1) * 1) = Ok (-1)%Z) by (destruct checks; reflexivity).
      assert (E2 : arith64 checks (as_i64 1 * 1) = Ok 1%Z) by (destruct checks; reflexivity).
      assert (E3 : arith64 checks (0 + -1) = Ok (-1)%Z) by (destruct checks; reflexivity).
      assert (E4 : arith64 checks (-1 + 1) = Ok 0%Z) by (destruct checks; reflexivity).
      rewrite E1. cbn [rbind add_entry]. rewrite E3. cbn [rbind upd nth_error of_opt ch_width ch_mult]. rewrite Nat.eqb_refl. cbn [negb rbind]. rewrite E2. cbn [rbind add_entry].
      rewrite (proj2 (key_eqb_spec x x) eq_refl). rewrite E4. reflexivity.
    - cbn [events map app flat_map sent boundary_event ev_dir dir_eqb bd_dir bd_channel bd_values bd_multiplicity]. unfold hits, boundary_event. cbn [ev_channel ev_values ev_dir dir_eqb Nat.eqb andb ev_mult bd_dir bd_channel bd_values bd_multiplicity].
      destruct (key_dec x x); [|congruence]. reflexivity.
    - reflexivity.
  Qed.

  (** The range check lets channel 0 through when there is no channel, and a flush of constants only panics on a table with
      more than one row. *)
  Theorem validate_witness_panics_refuted checks w x d m f size :
    validate_witness F checks w [] [mkBoundary F x 0 d m] [] 0 = Panic /\
    (flat_map column (fl_oracles F f) = [] -> fl_channel F f = 0 -> fl_table F f = 0 -> fl_selectors F f = [] -> 1 < size ->
     validate_witness F checks w [f] [] [size] 1 = Panic).
  Proof.
    split; [reflexivity|]. intros H1 H2 H3 H4 H5. unfold validate_witness. cbn [fold_r rbind Nat.sub]. unfold flush_step. rewrite H2, H3, oracle_ids_eq, H1, H4. cbn [Nat.ltb Nat.leb nth_error of_opt rbind].
    destruct (Nat.eqb_spec size 0); [lia|]. cbn [collect_r rbind forallb negb].
    destruct (Nat.leb_spec (size * 2 ^ fl_log_values_per_row F f) (2 ^ 0)); [|reflexivity]. pose proof (Nat.pow_nonzero 2 (fl_log_values_per_row F f)). cbn in H. nia.
  Qed.
End Props.

(** *** A concrete case: a table of three rows pushes pairs, selected by a third column; a second table pulls them. *)
Definition ex_poly (n : nat) (l : list N) : mpoly X16 := mkPoly X16 n (fun i => nth i (els l) (f0 : X16)).
Definition ex_witness : witness X16 := fun id => nth_error [ex_poly 2 [1;2;3;9]%N; ex_poly 2 [4;5;6;9]%N; ex_poly 2 [1;0;1;1]%N; ex_poly 1 [3;1]%N; ex_poly 1 [6;4]%N] id.
Definition ex_flushes : list (flush X16) :=
  [mkFlush X16 0 0 [Oracle X16 0; Oracle X16 1; Const X16 (el 7)] 1 Push [2] 2%N; mkFlush X16 1 0 [Oracle X16 3; Oracle X16 4; Const X16 (el 7)] 1 Pull [] 1%N].
Definition ex_bounds : list (boundary X16) := [mkBoundary X16 [el 1; el 4; el 7] 1 Pull 1%N; mkBoundary X16 [el 3; el 6; el 7] 1 Pull 1%N].
Example validate_witness_ex :
  inputs_ok X16 ex_witness ex_flushes ex_bounds [3; 2] 2 /\ (total X16 (events X16 ex_witness [3; 2]%nat ex_flushes ex_bounds) < 2 ^ 63)%Z /\
  length (events X16 ex_witness [3; 2]%nat ex_flushes ex_bounds) = 6 /\
  match validate_witness X16 true ex_witness ex_flushes ex_bounds [3; 2] 2 with Ok _ => True | _ => False end /\
  match validate_witness X16 true ex_witness ex_flushes (tl ex_bounds) [3; 2] 2 with Err => True | _ => False end.
Proof.
  split; [|split; [|split]].
  - split.
    + intros b [<-|[<-|[]]]; cbn; lia.
    + intros f [<-|[<-|[]]]; (split; [cbn; lia|]); (eexists; split; [reflexivity|]); right.
      * exists 2. split; [|split; [discriminate|cbn; lia]]. intros id I. repeat (destruct I as [<-|I]; [eexists; split; reflexivity|]). destruct I.
      * exists 1. split; [|split; [discriminate|cbn; lia]]. intros id I. repeat (destruct I as [<-|I]; [eexists; split; reflexivity|]). destruct I.
  - vm_compute. reflexivity.
  - vm_compute. reflexivity.
  - split; vm_compute; exact I.
Qed.
