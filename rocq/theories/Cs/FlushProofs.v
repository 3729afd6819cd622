(** The oracles of channel flushes and the balance check compute products over the events of the channels. *)
Require Import Coq.ZArith.ZArith Coq.Arith.Arith Coq.Lists.List Coq.Bool.Bool Coq.Sorting.Sorted Lia.
From Verif Require Import Base.Fld Base.Lists Base.Sums Base.Poly Math.MleSpec Math.ArithModel Math.ArithProofs Math.ArithProps Field.TowerProofs
  Transparent.TransparentModel Transparent.TransparentProps Protocol.Proto Protocol.Soundness Sumcheck.ZerocheckModel Utils.SortModel Utils.SortProps
  Cs.ChannelModel Cs.ChannelProps Cs.BalanceAlg Cs.FlushModel
  Evalcheck.OracleModel Evalcheck.EvalSpec Evalcheck.EvalProofs Evalcheck.EvalExtend Evalcheck.OracleProps.
Import ListNotations.

Section Proofs.
  Variable L : nat.
  Notation F := (TF L).
  Local Open Scope fld_scope.
  Add Ring Fring : (f_ring F).
  Notation be := (boundary_event F).

  (* ---------------------------------------------------------------- *)
  (** * The balance loop *)

  Lemma mix_values_spec (s : F) vs : forall sum m, mix_values s sum m vs = sum + m * peval vs s.
  Proof.
    induction vs as [|v vs IH]; intros sum m; cbn [mix_values]; [rewrite peval_nil; ring|]. rewrite IH, peval_cons. ring.
  Qed.
  Lemma boundary_factor (s r : F) b : pow64 (mix_values s r 1 (bd_values F b)) (bd_multiplicity F b) = factor F s r (be b).
  Proof. unfold pow64, factor. cbn [boundary_event ev_values ev_mult]. rewrite mix_values_spec. f_equal. ring. Qed.

  Lemma boundary_fold (s r : F) perms c bs : nth_error perms c = Some r -> forall p,
    fold_r (boundary_product s perms c) bs p = Ok (fst p * side F Pull c s r (map be bs), snd p * side F Push c s r (map be bs)).
  Proof.
    intros HR. induction bs as [|b bs IH]; intros [x y]; cbn [fold_r map]; [unfold side; cbn; f_equal; f_equal; ring|].
    rewrite !side_cons. unfold boundary_product at 1. unfold on. cbn [boundary_event ev_channel ev_dir].
    destruct (bd_channel F b =? c)%nat; cbn [andb].
    - rewrite HR. cbn [of_opt rbind]. rewrite IH, boundary_factor. cbn [fst snd]. f_equal. unfold times. destruct (bd_dir F b); cbn [dir_eqb fst snd]; f_equal; ring.
    - cbn [rbind]. rewrite IH. cbn [fst snd]. f_equal. f_equal; ring.
  Qed.

  (** the contribution of flushes with their products *)
  Definition sidef (d : direction) (c : nat) (fps : list (flush F * F)) : F :=
    fprod (map (fun fp => pow64 (snd fp) (fl_multiplicity F (fst fp))) (filter (fun fp => (fl_channel F (fst fp) =? c)%nat && dir_eqb (fl_dir F (fst fp)) d) fps)).
  Lemma sidef_cons d c fp fps : sidef d c (fp :: fps) =
    (if (fl_channel F (fst fp) =? c)%nat && dir_eqb (fl_dir F (fst fp)) d then pow64 (snd fp) (fl_multiplicity F (fst fp)) else 1) * sidef d c fps.
  Proof. unfold sidef. cbn [filter]. destruct (_ && _); cbn [map fprod]; ring. Qed.
  Lemma sidef_app d c a b : sidef d c (a ++ b) = sidef d c a * sidef d c b.
  Proof. induction a as [|x a IH]; cbn [app]; [unfold sidef at 2; cbn; ring|]. rewrite !sidef_cons, IH. ring. Qed.
  Lemma sidef_other d c fps : Forall (fun fp => fl_channel F (fst fp) <> c) fps -> sidef d c fps = 1.
  Proof.
    induction 1 as [|fp fps H _ IH]; [reflexivity|]. rewrite sidef_cons, IH. destruct (Nat.eqb_spec (fl_channel F (fst fp)) c); [contradiction|]. cbn [andb]. ring.
  Qed.

  Lemma flush_fold c mine : Forall (fun fp => fl_channel F (fst fp) = c) mine -> forall p : F * F,
    fold_left flush_product mine p = (fst p * sidef Pull c mine, snd p * sidef Push c mine).
  Proof.
    induction 1 as [|fp mine H _ IH]; intros [x y]; cbn [fold_left fst snd]; [unfold sidef; cbn; f_equal; ring|].
    rewrite IH, !sidef_cons, H, Nat.eqb_refl. cbn [andb]. unfold flush_product, times. destruct (fl_dir F (fst fp)); cbn [dir_eqb fst snd]; f_equal; ring.
  Qed.

  Lemma take_channel_spec {A} (ch : A -> nat) c l : let '(x, y) := take_channel ch c l in
    l = x ++ y /\ Forall (fun a => ch a = c) x /\ (forall a y', y = a :: y' -> ch a <> c).
  Proof.
    induction l as [|a l IH]; cbn [take_channel]; [repeat split; [constructor|discriminate]|].
    destruct (Nat.eqb_spec (ch a) c) as [E|E].
    - destruct (take_channel ch c l) as [x y]. destruct IH as [-> [H1 H2]]. repeat split; [now constructor|exact H2].
    - repeat split; [constructor|]. intros b y' [= <- <-]. exact E.
  Qed.

  Lemma sorted_take {A} (ch : A -> nat) a l : StronglySorted le (map ch (a :: l)) ->
    let '(x, y) := take_channel ch (ch a) (a :: l) in Forall (fun b => (ch a < ch b)%nat) y /\ StronglySorted le (map ch y) /\ (length y <= length l)%nat.
  Proof.
    intros H. pose proof (take_channel_spec ch (ch a) (a :: l)) as T.
    assert (LE : length (snd (take_channel ch (ch a) (a :: l))) <= length l).
    { cbn [take_channel]. rewrite Nat.eqb_refl. pose proof (take_channel_spec ch (ch a) l) as T'. destruct (take_channel ch (ch a) l) as [x' y']. cbn [snd].
      destruct T' as [-> _]. rewrite app_length. lia. }
    destruct (take_channel ch (ch a) (a :: l)) as [x y]. cbn [snd] in LE. destruct T as [E [H1 H2]].
    assert (SY : StronglySorted le (map ch y)).
    { rewrite E, map_app in H. clear - H. induction (map ch x) as [|z l' IH]; [exact H|]. cbn [app] in H. inversion H; subst. auto. }
    split; [|split; [exact SY|exact LE]]. destruct y as [|b y]; [constructor|]. pose proof (H2 b y eq_refl) as NB.
    assert (LB : (ch a <= ch b)%nat).
    { cbn [map] in H. inversion H as [|? ? _ FA]; subst. rewrite Forall_forall in FA. assert (I : In b (a :: l)) by (rewrite E; apply in_or_app; right; now left).
      destruct I as [->|I]; [lia|]. apply FA. now apply in_map. }
    cbn [map] in SY. inversion SY as [|? ? _ FB]; subst. constructor; [lia|]. rewrite Forall_map in FB. eapply Forall_impl; [|exact FB]. intros z Hz. cbn in Hz. lia.
  Qed.

  Definition balanced_on (s : F) (perms : list F) (bs : list (boundary F)) (fps : list (flush F * F)) (c : nat) : Prop :=
    forall r, nth_error perms c = Some r ->
      side F Pull c s r (map be bs) * sidef Pull c fps = side F Push c s r (map be bs) * sidef Push c fps.

  Lemma balance_loop_spec (s : F) perms bs : forall fuel fps, (length fps <= fuel)%nat ->
    StronglySorted le (map (fun fp => fl_channel F (fst fp)) fps) ->
    (forall fp, In fp fps -> (fl_channel F (fst fp) < length perms)%nat) ->
    (balance_loop fuel s perms bs fps = Ok tt /\ forall fp, In fp fps -> balanced_on s perms bs fps (fl_channel F (fst fp))) \/
    (balance_loop fuel s perms bs fps = Err /\ exists fp, In fp fps /\ ~ balanced_on s perms bs fps (fl_channel F (fst fp))).
  Proof.
    induction fuel as [|fuel IH]; intros fps LE SS HP.
    - destruct fps; [|cbn in LE; lia]. left. cbn [balance_loop]. split; [reflexivity|]. intros ? [].
    - destruct fps as [|fp fps]; [left; cbn [balance_loop]; split; [reflexivity|intros ? []]|]. cbn [balance_loop].
      set (c := fl_channel F (fst fp)). destruct (nth_error perms c) as [r|] eqn:ER.
      2:{ exfalso. apply nth_error_None in ER. specialize (HP fp (or_introl eq_refl)). fold c in HP. lia. }
      rewrite (boundary_fold s r perms c bs ER). cbn [rbind fst snd].
      pose proof (sorted_take (fun fp => fl_channel F (fst fp)) fp fps SS) as ST. cbn beta in ST. fold c in ST.
      pose proof (take_channel_spec (fun fp => fl_channel F (fst fp)) c (fp :: fps)) as TS.
      destruct (take_channel (fun fp => fl_channel F (fst fp)) c (fp :: fps)) as [mine others]. destruct ST as [LT [SO LO]]. destruct TS as [E [HM _]].
      rewrite (flush_fold c mine HM). cbn [fst snd].
      assert (OC : Forall (fun x : flush F * F => fl_channel F (fst x) <> c) others) by (eapply Forall_impl; [|exact LT]; intros x Hx; cbn in Hx; lia).
      assert (SC : forall d, sidef d c (fp :: fps) = sidef d c mine) by (intros d; rewrite E, sidef_app, (sidef_other d c others OC); ring).
      assert (SO' : forall d c', c' <> c -> sidef d c' (fp :: fps) = sidef d c' others).
      { intros d c' N. rewrite E, sidef_app, (sidef_other d c' mine); [ring|]. eapply Forall_impl; [|exact HM]. cbn. intros x ->. auto. }
      match goal with |- context [feqb ?u ?v] => destruct (feqb_spec F u v) as [EQ|NE] end; cbn [negb].
      + destruct (IH others) as [[B1 B2]|[B1 [fp' [I B2]]]]; [cbn [length] in LE; lia|exact SO|intros x Hx; apply HP; rewrite E; apply in_or_app; now right| |].
        * left. split; [exact B1|]. intros x Hx. destruct (Nat.eq_dec (fl_channel F (fst x)) c) as [EC|NC].
          -- rewrite EC. intros r' Hr'. assert (r' = r) by congruence. subst r'. rewrite !SC. transitivity (1 * side F Pull c s r (map be bs) * sidef Pull c mine); [ring|]. rewrite EQ. ring.
          -- intros r' Hr'. rewrite !SO' by auto. apply B2; [|exact Hr']. rewrite E in Hx. apply in_app_or in Hx. destruct Hx as [Hx|Hx]; [|exact Hx].
             rewrite Forall_forall in HM. specialize (HM x Hx). contradiction.
        * right. split; [exact B1|]. exists fp'. split; [rewrite E; apply in_or_app; now right|]. intros B. apply B2. intros r' Hr'.
          specialize (B r' Hr'). rewrite !SO' in B; auto; rewrite Forall_forall in OC; now apply OC.
      + right. split; [reflexivity|]. exists fp. split; [now left|]. intros B. apply NE. fold c in B. specialize (B r ER). rewrite !SC in B.
        transitivity (side F Pull c s r (map be bs) * sidef Pull c mine); [ring|]. rewrite B. ring.
  Qed.

  (* ---------------------------------------------------------------- *)
  (** * The oracles of flushes *)

  Lemma grow_spec (s : F) k : forall m, grow k s (map (fpow s) (seq 0 (S m))) = map (fpow s) (seq 0 (S m + k)).
  Proof.
    induction k as [|k IH]; intros m; cbn [grow]; [now rewrite Nat.add_0_r|].
    replace (map (fpow s) (seq 0 (S m)) ++ [last (map (fpow s) (seq 0 (S m))) 0 * s]) with (map (fpow s) (seq 0 (S (S m)))).
    - rewrite IH. f_equal. f_equal. lia.
    - rewrite (seq_S (S m) 0), map_app. f_equal. cbn [map]. f_equal. rewrite (seq_S m 0), map_app. cbn [map]. rewrite last_last. cbn [fpow Nat.add]. ring.
  Qed.
  Lemma mixing_powers_spec (s : F) n m : mixing_powers_to n s (map (fpow s) (seq 0 (S m))) = map (fpow s) (seq 0 (S m + (n - S m))).
  Proof. unfold mixing_powers_to. rewrite map_length, seq_length. apply grow_spec. Qed.

  (** the tuple flushed at [x] *)
  Definition tuple_at (V : values L) (f : flush F) (x : nat) : list F :=
    map (fun o => match o with Oracle _ id => V id x | Const _ b => b end) (fl_oracles F f).

  Lemma parts_sum (s : F) (V : nat -> F) : forall (os : list (oracle_or_const F)) k m, (length os <= m)%nat ->
    let powers := map (fpow s) (seq k m) in
    const_part os powers + fold_right (fun ic acc => snd ic * V (fst ic) + acc) 0 (column_part os powers) =
    fpow s k * peval (map (fun o => match o with Oracle _ id => V id | Const _ b => b end) os) s.
  Proof.
    induction os as [|o os IH]; intros k m LM; cbn zeta.
    - unfold const_part, column_part. cbn [combine flat_map fsum fold_right map]. rewrite peval_nil. ring.
    - destruct m as [|m]; [cbn in LM; lia|]. cbn [seq map combine]. specialize (IH (S k) m ltac:(cbn in LM; lia)). cbn zeta in IH.
      unfold const_part, column_part in *. cbn [combine flat_map fst snd map]. rewrite peval_cons.
      assert (E : fpow s k * (match o with Oracle _ id => V id | Const _ b => b end + s * peval (map (fun o => match o with Oracle _ id => V id | Const _ b => b end) os) s) =
        fpow s k * match o with Oracle _ id => V id | Const _ b => b end + fpow s (S k) * peval (map (fun o => match o with Oracle _ id => V id | Const _ b => b end) os) s) by (cbn [fpow]; ring).
      rewrite E, <- IH. destruct o as [id|b]; cbn [app fsum fold_right fst snd]; ring.
  Qed.

  Lemma eval_const (v : F) q : evaluate (cconst v) q = Some v.
  Proof. reflexivity. Qed.
  Lemma eval_var i (q : list F) v : nth_error q i = Some v -> evaluate (cvar i) q = Some v.
  Proof. intros H. unfold evaluate, evals, cvar. cbn [ofold]. cbn [step_val]. rewrite H. reflexivity. Qed.
  Lemma cwf_ops : (forall v : F, cwf F (cconst v)) /\ (forall i, cwf F (cvar i)) /\
    (forall a b, cwf F a -> cwf F b -> cwf F (cadd a b)) /\ (forall a b, cwf F a -> cwf F b -> cwf F (cmul a b)).
  Proof.
    destruct (circuits_wf F) as [A [B [C _]]]. split; [exact A|]. split; [exact B|]. split; intros a b WA WB; apply (C a b WA WB).
  Qed.
  Lemma eval_add q (a b : circuit F) x y : cwf F a -> cwf F b -> evaluate a q = Some x -> evaluate b q = Some y -> evaluate (cadd a b) q = Some (x + y).
  Proof. intros A B EA EB. apply (circuit_ops F q a b x y 0 A B EA EB). Qed.
  Lemma eval_mul q (a b : circuit F) x y : cwf F a -> cwf F b -> evaluate a q = Some x -> evaluate b q = Some y -> evaluate (cmul a b) q = Some (x * y).
  Proof. intros A B EA EB. apply (circuit_ops F q a b x y 0 A B EA EB). Qed.

  Lemma linear_circuit_ok (q sel vals : list F) : q = sel ++ vals -> forall coeffs off, length coeffs = length vals ->
    let c := linear_circuit off (length sel) coeffs in
    cwf F c /\ evaluate c q = Some (off + fold_right (fun p acc => fst p * snd p + acc) 0 (combine coeffs vals)).
  Proof.
    intros -> coeffs off LC. destruct cwf_ops as [W1 [W2 [W3 W4]]]. unfold linear_circuit. cbn zeta.
    assert (G : forall coeffs vals k pre acc v, length coeffs = length vals -> length pre = k -> cwf F acc -> evaluate acc (sel ++ pre ++ vals) = Some v ->
      let c := fold_left (fun linear ic => cadd linear (cmul (cvar (fst ic + length sel)) (cconst (snd ic)))) (combine (seq k (length coeffs)) coeffs) acc in
      cwf F c /\ evaluate c (sel ++ pre ++ vals) = Some (v + fold_right (fun p acc => fst p * snd p + acc) 0 (combine coeffs vals))).
    { clear - W1 W2 W3 W4. induction coeffs as [|a coeffs IH]; intros [|y vals] k pre acc v LC LP WA EA; cbn in LC; try lia; cbn zeta.
      - cbn. split; [exact WA|]. rewrite EA. f_equal. ring.
      - cbn [length seq combine fold_left fst snd fold_right].
        assert (EV : evaluate (cvar (k + length sel)) (sel ++ pre ++ y :: vals) = Some y).
        { apply eval_var. rewrite nth_error_app2 by lia. rewrite nth_error_app2 by lia. now replace (k + length sel - length sel - length pre)%nat with 0%nat by lia. }
        destruct (IH vals (S k) (pre ++ [y]) (cadd acc (cmul (cvar (k + length sel)) (cconst a))) (v + y * a)) as [R1 R2]; auto; try lia.
        + rewrite app_length. cbn. lia.
        + rewrite <- app_assoc. cbn [app]. apply eval_add; auto. apply eval_mul; auto.
        + rewrite <- app_assoc in R2. cbn [app] in R2. split; [exact R1|]. rewrite R2. f_equal. ring. }
    apply (G coeffs vals 0%nat [] (cconst off) off LC eq_refl (W1 off)). reflexivity.
  Qed.

  Lemma selector_circuit_ok (q sel vals : list F) : q = sel ++ vals -> cwf F (selector_circuit (length sel)) /\ evaluate (selector_circuit (length sel)) q = Some (fprod sel).
  Proof.
    intros ->. destruct cwf_ops as [W1 [W2 [W3 W4]]]. unfold selector_circuit. destruct sel as [|y sel]; [split; [apply W1|reflexivity]|].
    cbn [length seq map].
    assert (G : forall sel k pre acc v, length pre = k -> cwf F acc -> evaluate acc (pre ++ sel ++ vals) = Some v ->
      cwf F (fold_left cmul (map cvar (seq k (length sel))) acc) /\ evaluate (fold_left cmul (map cvar (seq k (length sel))) acc) (pre ++ sel ++ vals) = Some (v * fprod sel)).
    { clear - W1 W2 W3 W4. induction sel as [|y sel IH]; intros k pre acc v LP WA EA; cbn [length seq map fold_left fprod].
      - split; [exact WA|]. rewrite EA. f_equal. ring.
      - destruct (IH (S k) (pre ++ [y]) (cmul acc (cvar k)) (v * y)) as [R1 R2]; auto.
        + rewrite app_length. cbn. lia.
        + rewrite <- app_assoc. cbn [app]. apply eval_mul; auto. apply eval_var. rewrite nth_error_app2 by lia. now replace (k - length pre)%nat with 0%nat by lia.
        + rewrite <- app_assoc in R2. cbn [app] in R2. split; [exact R1|]. cbn [app]. rewrite R2. f_equal. ring. }
    cbn [fprod]. apply (G sel 1%nat [y] (cvar 0) y eq_refl (W2 0%nat)). now apply eval_var.
  Qed.

  Lemma oget_inv (os : oset L) id o : oget os id = Ok o -> present L os id o.
  Proof. unfold oget, present. destruct (nth_error os id) as [[o'|]|]; congruence. Qed.
  Lemma check_n_vars_inv (os : oset L) n ids : check_n_vars os n ids = Ok tt -> forall id, In id ids -> exists o, present L os id o /\ o_nvars o = n.
  Proof.
    induction ids as [|i ids IH]; intros H id Hi; [destruct Hi|]. cbn [check_n_vars] in H. unfold n_vars_of in H.
    destruct (oget os i) as [o| |] eqn:EO; cbn [rbind] in H; try discriminate. destruct (Nat.eqb_spec (o_nvars o) n) as [E|E]; cbn [negb] in H; [|discriminate].
    destruct Hi as [<-|Hi]; [exists o; split; [now apply oget_inv|exact E]|auto].
  Qed.

  Lemma column_part_ids (os : list (oracle_or_const F)) powers : (length os <= length powers)%nat -> map fst (column_part os powers) = oracle_ids F os.
  Proof.
    revert powers. induction os as [|o os IH]; intros [|p powers] LE; cbn [length] in LE; try lia; try reflexivity.
    unfold column_part, oracle_ids in *. cbn [combine flat_map fst snd]. rewrite map_app, IH by lia. now destruct o.
  Qed.

  (** the value of the flush oracle at [x] *)
  Definition on_at (V : values L) (f : flush F) (x : nat) : bool := forallb (fun i => negb (feqb (V i x) 0)) (fl_selectors F f).
  Definition flush_value (V : values L) (s r : F) (f : flush F) (x : nat) : F := if on_at V f x then r + peval (tuple_at V f x) s else 1.
  Definition bits_at (V : values L) (f : flush F) (x : nat) : Prop := forall i, In i (fl_selectors F f) -> V i x = 0 \/ V i x = 1.

  Lemma selectors_prod (V : values L) x sel : (forall i, In i sel -> V i x = 0 \/ V i x = 1) ->
    fprod (map (fun i => V i x) sel) = if forallb (fun i => negb (feqb (V i x) 0)) sel then 1 else 0.
  Proof.
    induction sel as [|i sel IH]; intros H; cbn [map fprod forallb]; [reflexivity|]. rewrite IH by (intros; apply H; now right).
    destruct (feqb_spec F (V i x) 0) as [E|E]; cbn [negb andb]; [rewrite E; ring|]. destruct (H i (or_introl eq_refl)) as [Z|O]; [contradiction|]. rewrite O. ring.
  Qed.

  (** [id] is the oracle of the flush [f] in the set [os] *)
  Definition flush_made (s r : F) (os : oset L) (f : flush F) (id : nat) : Prop :=
    exists o, present L os id o /\ oracle_ids F (fl_oracles F f) <> [] /\
    (forall i, In i (oracle_ids F (fl_oracles F f) ++ fl_selectors F f) -> exists oi, present L os i oi /\ o_nvars oi = o_nvars o) /\
    forall V, consistent os V -> forall x, (x < 2 ^ o_nvars o)%nat -> bits_at V f x -> V id x = flush_value V s r f x.

  Lemma flush_made_app s r os ext f id : flush_made s r os f id -> flush_made s r (os ++ ext) f id.
  Proof.
    intros [o [P [NE [H1 H2]]]]. exists o. split; [now apply nth_error_grow|]. split; [exact NE|]. split.
    - intros i Hi. destruct (H1 i Hi) as [oi [Pi Ei]]. exists oi. split; [now apply nth_error_grow|exact Ei].
    - intros V C. apply H2. now apply consistent_app in C.
  Qed.

  Lemma combine_map_vals (V : nat -> F) cols : fold_right (fun p acc => fst p * snd p + acc) 0 (combine (map snd cols) (map (fun i => V i) (map fst cols))) =
    fold_right (fun ic acc => snd ic * V (fst ic) + acc) 0 cols.
  Proof. induction cols as [|[i c] cols IH]; [reflexivity|]. cbn [map combine fold_right fst snd]. now rewrite IH. Qed.

  Lemma make_flush_oracle_ok (s r : F) os m f os' powers' id : oset_ok os ->
    make_flush_oracle s r (os, map (fpow s) (seq 0 (S m))) f = Ok (os', powers', id) ->
    oset_ok os' /\ (exists m', powers' = map (fpow s) (seq 0 (S m'))) /\ (exists o, os' = os ++ [Some o]) /\ flush_made s r os' f id.
  Proof.
    intros HO. unfold make_flush_oracle. destruct (oracle_ids F (fl_oracles F f)) as [|first rest] eqn:EI; [discriminate|].
    unfold n_vars_of. destruct (oget os first) as [o1| |] eqn:E1; cbn [rbind]; try discriminate. set (n := o_nvars o1).
    destruct (check_levels os (fl_selectors F f)) as [[]| |]; cbn [rbind]; try discriminate.
    destruct (check_n_vars os n rest) as [[]| |] eqn:EC; cbn [rbind]; try discriminate.
    rewrite mixing_powers_spec. set (k := (S m + (length (fl_oracles F f) - S m))%nat). set (powers := map (fpow s) (seq 0 k)).
    assert (LK : (length (fl_oracles F f) <= k)%nat) by (unfold k; lia).
    assert (LP : (length (fl_oracles F f) <= length powers)%nat) by (unfold powers; now rewrite map_length, seq_length).
    assert (CI := column_part_ids (fl_oracles F f) powers LP). set (cols := column_part (fl_oracles F f) powers) in *. set (consts := const_part (fl_oracles F f) powers).
    assert (PK : exists m', powers = map (fpow s) (seq 0 (S m'))).
    { exists (m + (length (fl_oracles F f) - S m))%nat. reflexivity. }
    assert (VAL : forall V : nat -> F, consts + fold_right (fun ic acc => snd ic * V (fst ic) + acc) 0 cols = peval (map (fun o => match o with Oracle _ id => V id | Const _ b => b end) (fl_oracles F f)) s).
    { intros V. unfold consts, cols, powers. rewrite (parts_sum s V (fl_oracles F f) 0 k LK). cbn [fpow]. ring. }
    assert (HC : forall i, In i (map fst cols) -> exists o, present L os i o /\ o_nvars o = n).
    { rewrite CI, EI. intros i [<-|Hi]; [exists o1; split; [now apply oget_inv|reflexivity]|now apply (check_n_vars_inv os n rest)]. }
    destruct (fl_selectors F f) as [|s0 sel] eqn:ES.
    - intros H. destruct (add_linear_combination_correct L os n (r + consts) cols HO) as (os2 & id2 & E2 & A1 & A2 & [o [A3 A4]] & A5).
      { intros i c Hi. apply HC. now apply (in_map fst) in Hi. }
      rewrite E2 in H. cbn [rbind fst snd] in H. injection H as <- <- <-. split; [exact A2|]. split; [exact PK|]. split; [now exists o|].
      exists o. split; [subst os2 id2; unfold present; apply nth_error_last|]. rewrite EI. split; [discriminate|]. split.
      + rewrite ES, app_nil_r, <- EI, <- CI, A4. intros i Hi. destruct (HC i Hi) as [oi [Pi Ei]]. exists oi. split; [rewrite A3; now apply nth_error_grow|exact Ei].
      + intros V C x Hx _. rewrite (A5 V C x) by (now rewrite <- A4). unfold flush_value, on_at. rewrite ES. cbn [forallb]. unfold tuple_at.
        rewrite <- (VAL (fun i => V i x)). ring.
    - rewrite <- ES. set (ns := length (fl_selectors F f)). set (circ := cadd (cconst 1) (cmul (selector_circuit ns) (linear_circuit (r + consts + 1) ns (map snd cols)))).
      intros H. destruct cwf_ops as [W1 [W2 [W3 W4]]].
      assert (CE : forall V : values L, forall x, cwf F circ /\ evaluate circ (map (fun i => V i x) (fl_selectors F f ++ map fst cols)) =
        Some (1 + fprod (map (fun i => V i x) (fl_selectors F f)) * (r + consts + 1 + fold_right (fun ic acc => snd ic * V (fst ic) x + acc) 0 cols))).
      { intros V x. rewrite map_app. set (q := map (fun i => V i x) (fl_selectors F f) ++ map (fun i => V i x) (map fst cols)).
        destruct (selector_circuit_ok q (map (fun i => V i x) (fl_selectors F f)) (map (fun i => V i x) (map fst cols)) eq_refl) as [S1 S2].
        destruct (linear_circuit_ok q (map (fun i => V i x) (fl_selectors F f)) (map (fun i => V i x) (map fst cols)) eq_refl (map snd cols) (r + consts + 1)) as [T1 T2]; [now rewrite !map_length|].
        rewrite map_length in S1, S2, T1, T2. fold ns in S1, S2, T1, T2. split; [apply W3; auto|]. unfold circ. apply eval_add; auto. apply eval_mul; auto.
        rewrite T2. f_equal. f_equal. apply (combine_map_vals (fun i => V i x)). }
      assert (HA : forall i, In i (fl_selectors F f ++ map fst cols) -> exists o, present L os i o /\ o_nvars o = n).
      { unfold add_composite_mle in H. destruct (rmap (level_of os) _) as [lv| |]; cbn [rbind] in H; try discriminate.
        destruct (check_n_vars os n (fl_selectors F f ++ map fst cols)) as [[]| |] eqn:EN; cbn [rbind] in H; try discriminate. now apply check_n_vars_inv. }
      pose proof (add_composite_correct L os n (fl_selectors F f ++ map fst cols) circ HO (proj1 (CE (fun _ _ => 0) 0%nat)) HA) as AC.
      destruct (add_composite_mle os n (fl_selectors F f ++ map fst cols) circ) as [[os2 id2]| |]; cbn [rbind fst snd] in H; try discriminate. injection H as <- <- <-.
      destruct AC as (A1 & A2 & [o [A3 A4]] & A5). split; [exact A2|]. split; [exact PK|]. split; [now exists o|].
      exists o. split; [subst os2 id2; unfold present; apply nth_error_last|]. rewrite EI. split; [discriminate|]. split.
      + rewrite <- EI, <- CI, A4. intros i Hi. destruct (HA i) as [oi [Pi Ei]]; [apply in_app_or in Hi; apply in_or_app; tauto|]. exists oi. split; [rewrite A3; now apply nth_error_grow|exact Ei].
      + intros V C x Hx HB. destruct (CE V x) as [_ EV].
        assert (NV : (n_vars circ <= length (fl_selectors F f ++ map fst cols))%nat).
        { assert (EV' := EV). apply evaluate_valid in EV'. destruct EV' as (vs & Hv & _). apply valid_nvars in Hv. now rewrite map_length in Hv. }
        assert (E := A5 V C x ltac:(now rewrite <- A4) NV). rewrite EV in E. injection E as <-.
        unfold flush_value, on_at. rewrite (selectors_prod V x _ HB). unfold tuple_at. rewrite <- (VAL (fun i => V i x)).
        pose proof (TF_char2 L) as C2. unfold char2 in C2.
        destruct (forallb _ _); [|ring]. transitivity ((1 + 1) + (r + (consts + fold_right (fun ic acc => snd ic * V (fst ic) x + acc) 0 cols))); [ring|]. rewrite C2. ring.
  Qed.

  Lemma make_channel_ok (s r : F) fs : forall os m os' powers' ids, oset_ok os ->
    make_channel s r (os, map (fpow s) (seq 0 (S m))) fs = Ok (os', powers', ids) ->
    oset_ok os' /\ (exists m', powers' = map (fpow s) (seq 0 (S m'))) /\ (exists ext, os' = os ++ ext) /\ Forall2 (flush_made s r os') fs ids.
  Proof.
    induction fs as [|f fs IH]; intros os m os' powers' ids HO H; cbn [make_channel] in H.
    - injection H as <- <- <-. split; [exact HO|]. split; [now exists m|]. split; [exists []; now rewrite app_nil_r|constructor].
    - destruct (make_flush_oracle s r (os, map (fpow s) (seq 0 (S m))) f) as [[[os1 p1] id]| |] eqn:E1; cbn [rbind fst snd] in H; try discriminate.
      apply make_flush_oracle_ok in E1; [|exact HO]. destruct E1 as [O1 [[m1 ->] [[o ->] FM]]].
      destruct (make_channel s r _ fs) as [[[os2 p2] ids2]| |] eqn:E2; cbn [rbind fst snd] in H; try discriminate. injection H as <- <- <-.
      apply IH in E2; [|exact O1]. destruct E2 as [O2 [P2 [[ext ->] F2]]]. split; [exact O2|]. split; [exact P2|]. split; [exists ([Some o] ++ ext); now rewrite app_assoc|].
      constructor; [now apply flush_made_app|exact F2].
  Qed.

  (** the oracle of [f], made with the challenge of its channel *)
  Definition made (s : F) (perms : list F) (os : oset L) (f : flush F) (id : nat) : Prop :=
    exists r, nth_error perms (fl_channel F f) = Some r /\ flush_made s r os f id.

  Lemma Forall2_weaken {A B} (P Q : A -> B -> Prop) l1 l2 : (forall a b, In a l1 -> P a b -> Q a b) -> Forall2 P l1 l2 -> Forall2 Q l1 l2.
  Proof. intros H F2. induction F2 as [|a b l1 l2 HP F2 IH]; constructor; [apply H; [now left|exact HP]|apply IH; intros; apply H; auto; now right]. Qed.

  Lemma make_flush_oracles_ok (s : F) perms : forall pre fs os m os' ids, oset_ok os ->
    make_flush_oracles s perms (length pre) (os, map (fpow s) (seq 0 (S m))) fs = Ok (os', ids) ->
    oset_ok os' /\ (exists ext, os' = os ++ ext) /\ exists fs1 fs2, fs = fs1 ++ fs2 /\ Forall2 (made s (pre ++ perms) os') fs1 ids.
  Proof.
    induction perms as [|r perms IH]; intros pre fs os m os' ids HO H; cbn [make_flush_oracles] in H.
    - injection H as <- <-. split; [exact HO|]. split; [exists []; now rewrite app_nil_r|]. exists [], fs. split; [reflexivity|constructor].
    - pose proof (take_channel_spec (fl_channel F) (length pre) fs) as TS. destruct (take_channel (fl_channel F) (length pre) fs) as [mine others]. destruct TS as [-> [HM _]].
      destruct (make_channel s r _ mine) as [[[os1 p1] ids1]| |] eqn:E1; cbn [rbind fst snd] in H; try discriminate.
      apply make_channel_ok in E1; [|exact HO]. destruct E1 as [O1 [[m1 ->] [[ext1 ->] F1]]].
      replace (S (length pre)) with (length (pre ++ [r])) in H by (rewrite app_length; cbn; lia).
      destruct (make_flush_oracles s perms _ _ others) as [[os2 ids2]| |] eqn:E2; cbn [rbind fst snd] in H; try discriminate. injection H as <- <-.
      apply IH in E2; [|exact O1]. destruct E2 as [O2 [[ext2 ->] [fs1 [fs2 [-> F2]]]]]. split; [exact O2|]. split; [exists (ext1 ++ ext2); now rewrite app_assoc|].
      exists (mine ++ fs1), fs2. split; [now rewrite app_assoc|]. rewrite <- app_assoc in F2. cbn [app] in F2. apply Forall2_app; [|exact F2].
      eapply Forall2_weaken; [|exact F1]. intros f id Hf FM. exists r. split; [|now apply flush_made_app].
      rewrite Forall_forall in HM. rewrite (HM f Hf), nth_error_app2, Nat.sub_diag by lia. reflexivity.
  Qed.

  (* ---------------------------------------------------------------- *)
  (** * Selectors for tables of arbitrary size *)

  Lemma log2_ceil_pow n : is_power_of_two n = true -> (2 ^ log2_ceil n = n)%nat.
  Proof.
    unfold is_power_of_two. intros H. apply andb_prop in H. destruct H as [H1 H2]. apply negb_true_iff, Nat.eqb_neq in H1. apply Nat.eqb_eq in H2.
    set (k := Nat.log2 n) in *. rewrite H2. f_equal. unfold log2_ceil, min_bits. destruct (2 ^ k - 1)%nat as [|m] eqn:E.
    - assert (2 ^ k = 1)%nat by lia. destruct k as [|k]; [reflexivity|]. rewrite Nat.pow_succ_r' in H. lia.
    - assert (Nat.log2 (S m) < k)%nat by (apply Nat.log2_lt_pow2; lia). destruct k as [|k]; [lia|].
      assert (k <= Nat.log2 (S m))%nat; [|lia]. apply Nat.log2_le_pow2; [lia|]. rewrite Nat.pow_succ_r' in E. pose proof (Nat.pow_nonzero 2 k ltac:(lia)). lia.
  Qed.

  (** [id] is one on the rows of the table of [f] and zero on the rows after *)
  Definition step_oracle (sizes : list nat) (os : oset L) (t lv id : nat) : Prop :=
    exists o size, nth_error sizes t = Some size /\ present L os id o /\ o_nvars o = (log2_ceil size + lv)%nat /\
      forall V, consistent os V -> forall x, (x < 2 ^ o_nvars o)%nat -> V id x = if (x <? size * 2 ^ lv)%nat then 1 else 0.
  Lemma step_oracle_app sizes os ext t lv id : step_oracle sizes os t lv id -> step_oracle sizes (os ++ ext) t lv id.
  Proof.
    intros [o [size [E1 [E2 [E3 E4]]]]]. exists o, size. split; [exact E1|]. split; [now apply nth_error_grow|]. split; [exact E3|]. intros V C. apply E4. now apply consistent_app in C.
  Qed.
  Definition sd_ok (sizes : list nat) (os : oset L) (m : sd_map) : Prop := forall t lv id, sd_find t lv m = Some id -> step_oracle sizes os t lv id.
  Definition found (specs : list size_spec) (m : sd_map) (f : flush F) : Prop :=
    nth_error specs (fl_table F f) = Some Arbitrary -> sd_find (fl_table F f) (fl_log_values_per_row F f) m <> None.

  Lemma create_step_down_ok specs sizes os m f os' m' : oset_ok os -> sd_ok sizes os m ->
    create_step_down specs sizes (os, m) f = Ok (os', m') ->
    oset_ok os' /\ (exists ext, os' = os ++ ext) /\ sd_ok sizes os' m' /\ found specs m' f /\ forall g, found specs m g -> found specs m' g.
  Proof.
    intros HO HM. unfold create_step_down. destruct (nth_error sizes (fl_table F f)) as [size|] eqn:EZ; cbn [of_opt rbind]; [|discriminate].
    destruct (nth_error specs (fl_table F f)) as [spec|] eqn:ES; cbn [of_opt rbind]; [|discriminate].
    assert (SAME : spec <> Arbitrary \/ sd_find (fl_table F f) (fl_log_values_per_row F f) m <> None -> Ok (os, m) = Ok (os', m') ->
      oset_ok os' /\ (exists ext, os' = os ++ ext) /\ sd_ok sizes os' m' /\ found specs m' f /\ forall g, found specs m g -> found specs m' g).
    { intros C [= <- <-]. split; [exact HO|]. split; [exists []; now rewrite app_nil_r|]. split; [exact HM|]. split; [|auto]. intros E. destruct C as [C|C]; [congruence|exact C]. }
    destruct spec as [|ls|]; [apply SAME; left; discriminate|apply SAME; left; discriminate|]. cbn [fst snd].
    destruct (sd_find (fl_table F f) (fl_log_values_per_row F f) m) as [i|] eqn:EF; [apply SAME; right; discriminate|]. clear SAME.
    unfold step_new. set (n := (log2_ceil size + fl_log_values_per_row F f)%nat). set (idx := (size * 2 ^ fl_log_values_per_row F f)%nat).
    destruct (Nat.ltb_spec (2 ^ n) idx) as [H|H]; cbn [rbind]; [discriminate|].
    pose proof (add_transparent_correct L os (step_down_poly (n, idx)) 0 _ HO (evaluates_extends _ _ _ (step_down_correct F n idx H))) as AT. cbn [Nat.leb] in AT.
    destruct AT as (os2 & id2 & E2 & A1 & A2 & [o [A3 A4]] & A5). rewrite E2. cbn [rbind fst snd]. intros [= <- <-].
    split; [exact A2|]. split; [now exists [Some o]|]. split; [|split].
    - intros t lv id. cbn [sd_find]. destruct (Nat.eqb_spec (fl_table F f) t) as [Et|Nt]; cbn [andb].
      + destruct (Nat.eqb_spec (fl_log_values_per_row F f) lv) as [El|Nl].
        * intros [= <-]. exists o, size. subst t lv. split; [exact EZ|]. split; [rewrite A3, A1; unfold present; apply nth_error_last|]. split; [exact A4|].
          intros V C x Hx. apply (A5 V C x). now rewrite A4 in Hx.
        * intros E. rewrite A3. apply step_oracle_app. now apply HM.
      + intros E. rewrite A3. apply step_oracle_app. now apply HM.
    - intros _. cbn [sd_find]. rewrite !Nat.eqb_refl. discriminate.
    - intros g Hg E. cbn [sd_find]. destruct (_ && _); [discriminate|now apply Hg].
  Qed.

  Lemma create_all_ok specs sizes fs : forall os m os' m', oset_ok os -> sd_ok sizes os m -> fold_r (create_step_down specs sizes) fs (os, m) = Ok (os', m') ->
    oset_ok os' /\ (exists ext, os' = os ++ ext) /\ sd_ok sizes os' m' /\ forall g, In g fs \/ found specs m g -> found specs m' g.
  Proof.
    induction fs as [|f fs IH]; intros os m os' m' HO HM H; cbn [fold_r] in H.
    - injection H as <- <-. split; [exact HO|]. split; [exists []; now rewrite app_nil_r|]. split; [exact HM|]. intros g [[]|Hg]; exact Hg.
    - destruct (create_step_down specs sizes (os, m) f) as [[os1 m1]| |] eqn:E1; cbn [rbind] in H; try discriminate.
      apply create_step_down_ok in E1; auto. destruct E1 as [O1 [[ext1 ->] [M1 [F1 G1]]]]. apply IH in H; auto. destruct H as [O2 [[ext2 ->] [M2 G2]]].
      split; [exact O2|]. split; [exists (ext1 ++ ext2); now rewrite app_assoc|]. split; [exact M2|]. intros g [[<-|Hg]|Hg]; apply G2; auto.
  Qed.

  (** [f'] is [f], with the selector for the rows of the table if the size of the table is arbitrary *)
  Definition augments (specs : list size_spec) (sizes : list nat) (os : oset L) (f f' : flush F) : Prop :=
    exists spec, nth_error specs (fl_table F f) = Some spec /\
    match spec with
    | Arbitrary => exists id, f' = add_selector f id /\ step_oracle sizes os (fl_table F f) (fl_log_values_per_row F f) id
    | _ => f' = f
    end.

  Lemma augment_ok os fs specs sizes os' fs' : oset_ok os -> augment_flush_po2_step_down os fs specs sizes = Ok (os', fs') ->
    oset_ok os' /\ (exists ext, os' = os ++ ext) /\ Forall2 (augments specs sizes os') fs fs'.
  Proof.
    intros HO. unfold augment_flush_po2_step_down. destruct (fold_r (create_step_down specs sizes) fs (os, [])) as [[os1 m1]| |] eqn:E1; cbn [rbind fst snd]; try discriminate.
    destruct (rmap (push_step_down specs m1) fs) as [fs1| |] eqn:E2; cbn [rbind]; try discriminate. intros [= <- <-].
    apply create_all_ok in E1; [|exact HO|intros t lv id; discriminate]. destruct E1 as [O1 [X1 [M1 G1]]]. split; [exact O1|]. split; [exact X1|].
    assert (G : forall g, In g fs -> found specs m1 g) by auto. clear G1.
    revert fs1 E2. induction fs as [|f fs IH]; intros fs1 E2; cbn [rmap] in E2; [injection E2 as <-; constructor|].
    destruct (push_step_down specs m1 f) as [f'| |] eqn:EP; cbn [rbind] in E2; try discriminate. destruct (rmap (push_step_down specs m1) fs) as [fs2| |]; cbn [rbind] in E2; try discriminate.
    injection E2 as <-. constructor; [|apply IH; auto; intros; apply G; now right].
    unfold push_step_down in EP. destruct (nth_error specs (fl_table F f)) as [spec|] eqn:ES; cbn [of_opt rbind] in EP; [|discriminate]. exists spec. split; [exact ES|].
    destruct spec; try congruence. destruct (sd_find (fl_table F f) (fl_log_values_per_row F f) m1) as [id|] eqn:EF; [|exfalso; now apply (G f (or_introl eq_refl) ES)].
    injection EP as <-. exists id. split; [reflexivity|]. now apply M1.
  Qed.

  (* ---------------------------------------------------------------- *)
  (** * The oracle of a flush is the table of its events *)

  (** the columns of the oracle set, with the values [V], as a witness *)
  Definition wit (os : oset L) (V : values L) : witness F := fun id => match nth_error os id with Some (Some o) => Some (mkPoly F (o_nvars o) (V id)) | _ => None end.

  (** the columns and selectors of [f] exist and have as many variables as its table needs *)
  Definition sized_flush (os : oset L) (sizes : list nat) (f : flush F) : Prop :=
    exists size, nth_error sizes (fl_table F f) = Some size /\
    forall id, In id (oracle_ids F (fl_oracles F f) ++ fl_selectors F f) -> exists o, present L os id o /\ o_nvars o = (log2_ceil size + fl_log_values_per_row F f)%nat.

  Definition flush_vars (sizes : list nat) (f : flush F) : nat := (log2_ceil (nth (fl_table F f) sizes 0%nat) + fl_log_values_per_row F f)%nat.
  Definition flush_rows (sizes : list nat) (f : flush F) : nat := (nth (fl_table F f) sizes 0%nat * 2 ^ fl_log_values_per_row F f)%nat.

  Definition flush_table (w : witness F) (sizes : list nat) (s r : F) (f : flush F) (x : nat) : F :=
    if (x <? flush_rows sizes f)%nat && selected F w f x then r + peval (tuple F w f x) s else 1.

  Definition agree (os : oset L) (V V' : values L) : Prop := forall i o, present L os i o -> forall x, (x < 2 ^ o_nvars o)%nat -> V' i x = V i x.

  Lemma table_sizes_ok specs sizes t size spec : check_table_sizes specs sizes = Ok tt -> nth_error sizes t = Some size -> nth_error specs t = Some spec ->
    spec <> Arbitrary -> (2 ^ log2_ceil size = size)%nat.
  Proof.
    unfold check_table_sizes. destruct (length sizes =? length specs)%nat; cbn [negb]; [|discriminate].
    destruct (forallb _ (combine sizes specs)) eqn:E; [|discriminate]. intros _ EZ ES NA. rewrite forallb_forall in E.
    assert (I : In (size, spec) (combine sizes specs)).
    { clear - EZ ES. revert specs t EZ ES. induction sizes as [|a sizes IH]; intros [|b specs] [|t]; cbn [nth_error combine]; intros EZ ES; try discriminate; [left; congruence|right; eauto]. }
    specialize (E _ I). cbn [fst snd] in E. destruct spec as [|ls|]; [now apply log2_ceil_pow| |congruence]. apply Nat.eqb_eq in E. apply log2_ceil_pow. unfold is_power_of_two.
    pose proof (Nat.pow_nonzero 2 ls ltac:(lia)). rewrite E, Nat.log2_pow2, Nat.eqb_refl by lia. destruct (Nat.eqb_spec (2 ^ ls) 0); [lia|reflexivity].
  Qed.

  Lemma oracle_is_table os V specs sizes os1 ext1 os2 ext2 s perms f f' id : check_table_sizes specs sizes = Ok tt ->
    os1 = os ++ ext1 -> os2 = os1 ++ ext2 -> sized_flush os sizes f ->
    (forall x, (x < 2 ^ flush_vars sizes f)%nat -> bits_at V f x) ->
    augments specs sizes os1 f f' -> made s perms os2 f' id ->
    fl_channel F f' = fl_channel F f /\ fl_dir F f' = fl_dir F f /\ fl_multiplicity F f' = fl_multiplicity F f /\
    n_vars_or0 os2 id = flush_vars sizes f /\ oget os2 id <> Panic /\
    exists r, nth_error perms (fl_channel F f) = Some r /\
    forall V', consistent os2 V' -> agree os V V' -> forall x, (x < 2 ^ flush_vars sizes f)%nat -> V' id x = flush_table (wit os V) sizes s r f x.
  Proof.
    intros CT E1 E2 [size [EZ SZ]] HB [spec [ES AU]] [r [ER [o [PO [NE [HC HV]]]]]].
    assert (FV : flush_vars sizes f = (log2_ceil size + fl_log_values_per_row F f)%nat) by (unfold flush_vars; now rewrite (nth_error_nth _ _ _ EZ)).
    assert (FR : flush_rows sizes f = (size * 2 ^ fl_log_values_per_row F f)%nat) by (unfold flush_rows; now rewrite (nth_error_nth _ _ _ EZ)).
    assert (SO : fl_oracles F f' = fl_oracles F f /\ fl_channel F f' = fl_channel F f /\ fl_dir F f' = fl_dir F f /\ fl_multiplicity F f' = fl_multiplicity F f)
      by (destruct spec; [subst; auto|subst; auto|destruct AU as [i [-> _]]; auto]).
    destruct SO as [SO1 [SO2 [SO3 SO4]]].
    assert (NV : o_nvars o = flush_vars sizes f).
    { rewrite SO1 in *. destruct (oracle_ids F (fl_oracles F f)) as [|i0 ids0] eqn:EI; [congruence|]. destruct (HC i0 (or_introl eq_refl)) as [oi [Pi Ei]].
      destruct (SZ i0) as [oj [Pj Ej]]; [now left|]. assert (present L os2 i0 oj) by (rewrite E2, E1; unfold present; now apply nth_error_grow, nth_error_grow).
      unfold present in *. rewrite FV, <- Ej, <- Ei. congruence. }
    repeat (split; [auto; fail|]).
    split; [unfold n_vars_or0, oget; unfold present in PO; now rewrite PO|]. split; [unfold oget; unfold present in PO; rewrite PO; discriminate|].
    exists r. split; [now rewrite <- SO2|]. intros V' CV AG x Hx.
    assert (AV : forall i, In i (oracle_ids F (fl_oracles F f) ++ fl_selectors F f) -> V' i x = V i x /\ cell F (wit os V) i x = V i x).
    { intros i Hi. destruct (SZ i Hi) as [oi [Pi Ei]]. split; [apply (AG i oi Pi); now rewrite Ei, <- FV|]. unfold cell, wit. unfold present in Pi. now rewrite Pi. }
    assert (TU : tuple_at V' f' x = tuple F (wit os V) f x).
    { unfold tuple_at, tuple. rewrite SO1. apply map_ext_in. intros [i|b] Hi; [|reflexivity]. destruct (AV i) as [-> ->]; [|reflexivity].
      apply in_or_app. left. unfold oracle_ids. apply in_flat_map. exists (Oracle F i). split; [exact Hi|now left]. }
    assert (SE : forallb (fun i => negb (feqb (V' i x) 0)) (fl_selectors F f) = selected F (wit os V) f x).
    { unfold selected. assert (AS : forall i, In i (fl_selectors F f) -> V' i x = cell F (wit os V) i x) by (intros i Hi; destruct (AV i) as [-> ->]; [apply in_or_app; now right|reflexivity]).
      clear - AS. induction (fl_selectors F f) as [|i l IH]; [reflexivity|]. cbn [forallb]. rewrite (AS i (or_introl eq_refl)), IH by (intros; apply AS; now right). reflexivity. }
    assert (BV : forall i, In i (fl_selectors F f) -> V' i x = 0 \/ V' i x = 1) by (intros i Hi; destruct (AV i) as [-> _]; [apply in_or_app; now right|now apply (HB x Hx)]).
    assert (NARB : spec <> Arbitrary -> (x <? flush_rows sizes f)%nat = true).
    { intros NA. apply Nat.ltb_lt. rewrite FR. rewrite FV, Nat.pow_add_r, (table_sizes_ok specs sizes (fl_table F f) size spec CT EZ ES NA) in Hx. exact Hx. }
    assert (BA : bits_at V' f' x).
    { destruct spec; [subst f'; exact BV|subst f'; exact BV|]. destruct AU as [j [-> [oj [zj [Ezj [Pj [Nj Vj]]]]]]]. intros i Hi.
      cbn [add_selector fl_selectors] in Hi. apply in_app_or in Hi. destruct Hi as [Hi|[<-|[]]]; [now apply BV|].
      assert (C1 : consistent os1 V') by (subst os2; now apply consistent_app in CV). assert (zj = size) by congruence. subst zj.
      rewrite (Vj V' C1 x) by (rewrite Nj, <- FV; exact Hx). destruct (x <? size * 2 ^ fl_log_values_per_row F f)%nat; [now right|now left]. }
    rewrite (HV V' CV x) by (auto; now rewrite NV).
    unfold flush_value, flush_table. rewrite TU. unfold on_at. destruct spec as [|ls|].
    - subst f'. rewrite SE, NARB by discriminate. reflexivity.
    - subst f'. rewrite SE, NARB by discriminate. reflexivity.
    - destruct AU as [j [-> [oj [zj [Ezj [Pj [Nj Vj]]]]]]]. cbn [add_selector fl_selectors]. rewrite forallb_app, SE. cbn [forallb].
      assert (C1 : consistent os1 V') by (subst os2; now apply consistent_app in CV). assert (zj = size) by congruence. subst zj.
      rewrite (Vj V' C1 x) by (rewrite Nj, <- FV; exact Hx). rewrite <- FR. destruct (x <? flush_rows sizes f)%nat.
      + destruct (feqb_spec F (1 : F) 0) as [E|E]; [now apply (f_10 F) in E|]. cbn [negb andb]. now rewrite andb_true_r.
      + rewrite feqb_refl. cbn [negb andb]. now rewrite andb_false_r.
  Qed.
End Proofs.
