(** C66: the functions that add oracles keep the set well formed and give the new oracle the
    documented values; C67: building a constraint set preserves what the constraints say. *)
Require Import Coq.setoid_ring.Ring Coq.Arith.Arith Coq.Lists.List Coq.Bool.Bool Lia.
From Verif Require Import Base.Fld Base.Lists Base.Sums Math.MleSpec Math.MleModel Math.ArithModel Math.ArithProofs Math.ArithProps
  Field.Quad Field.TowerModel Field.TowerProofs Transparent.TransparentModel Transparent.TransparentProps
  Transparent.ShiftModel Evalcheck.OracleModel Evalcheck.EvalModel Evalcheck.EvalSpec Evalcheck.EvalProofs Evalcheck.EvalExtend.
Import ListNotations.

Section Props.
  Variable L : nat.
  Notation F := (TF L).
  Local Open Scope fld_scope.

  (** The set [os'] is [os] with one more oracle, [id], which has [n] variables; the old oracles keep
      their values and the values of the new one are [val V] for the values [V] of the old ones. *)
  Definition adds_oracle (os os' : oset L) (id n : nat) (val : values L -> nat -> F) : Prop :=
    id = length os /\ oset_ok os' /\
    (exists o, os' = os ++ [Some o] /\ o_nvars o = n) /\
    forall V, consistent os' V -> forall x, (x < 2 ^ n)%nat -> V id x = val V x.

  Definition present (os : oset L) (id : nat) (o : oracle L) : Prop := nth_error os id = Some (Some o).

  Lemma add_ok (os : oset L) n l v val : oset_ok os -> variant_ok os (length os) n v ->
    (forall V x, (x < 2 ^ n)%nat -> defined_at (os ++ [Some (mkOracle n l v)]) V (length os) n v x -> V (length os) x = val V x) ->
    adds_oracle os (os ++ [Some (mkOracle n l v)]) (length os) n val.
  Proof.
    intros HO HV HD. split; auto. split; [now apply oset_ok_snoc|]. split; [eexists; split; reflexivity|].
    intros V C x Hx. apply HD; auto. apply (C _ _ (nth_error_last _ _) x Hx).
  Qed.

  Lemma valid_present (os : oset L) id o : present os id o -> is_valid_oracle_id os id = true.
  Proof. intros H. apply Nat.ltb_lt. apply nth_error_Some. congruence. Qed.

  Lemma present_lt (os : oset L) id o : present os id o -> (id < length os)%nat.
  Proof. intros H. apply nth_error_Some. congruence. Qed.

  (** Which error an unknown or skipped inner oracle gives. *)
  Lemma not_present (os : oset L) id : (forall o, ~ present os id o) -> oget os id = Panic.
  Proof. unfold oget, present. destruct (nth_error os id) as [[o|]|]; auto. intros H. now destruct (H o). Qed.

  Theorem add_committed_correct (os : oset L) n l : oset_ok os ->
    let '(os', id) := add_committed os n l in adds_oracle os os' id n (fun V => V id).
  Proof. intros HO. cbn [add_committed add_to_set]. now apply add_ok. Qed.

  Theorem add_transparent_correct (os : oset L) p l t : oset_ok os -> extends_to p (mv_nvars p) t ->
    if (l <=? L)%nat then exists os' id, add_transparent os p l = Ok (os', id) /\ adds_oracle os os' id (mv_nvars p) (fun _ => t)
    else add_transparent os p l = Err.
  Proof.
    intros HO HT. unfold add_transparent. rewrite Nat.ltb_antisym. destruct (Nat.leb_spec l L); cbn [negb]; auto.
    do 2 eexists. split; [reflexivity|]. apply add_ok; auto; [now exists t|].
    intros V x Hx D. cbn [defined_at] in D. rewrite (proj2 HT) in D by apply vertex_length. injection D as <-.
    now rewrite mle_on_cube.
  Qed.

  (** The circuit must be multilinear with the variables it has beyond [n] set to zero. *)
  Theorem add_structured_correct (os : oset L) n c t : oset_ok os -> (n <= n_vars c)%nat -> (circuit_level c <= L)%nat ->
    (forall q, length q = n -> evaluate c (q ++ repeat 0 (n_vars c - n)) = Some (mle t q)) ->
    exists os' id, add_structured os n c = Ok (os', id) /\ adds_oracle os os' id n (fun _ => t).
  Proof.
    intros HO Hn HL HT. unfold add_structured. rewrite (proj2 (Nat.ltb_ge _ _)) by auto.
    do 2 eexists. split; [reflexivity|]. apply add_ok; auto; [split; eauto|].
    intros V x Hx D. cbn [defined_at] in D. rewrite HT in D by apply vertex_length. injection D as <-. now rewrite mle_on_cube.
  Qed.

  Theorem add_repeating_correct (os : oset L) i k : oset_ok os ->
    (forall o, present os i o -> exists os' id, add_repeating os i k = Ok (os', id) /\
       adds_oracle os os' id (o_nvars o + k) (fun V x => V i (x mod 2 ^ o_nvars o)%nat)) /\
    ((length os <= i)%nat -> add_repeating os i k = Err).
  Proof.
    intros HO. split.
    - intros o E. unfold add_repeating. rewrite (valid_present _ _ _ E), (oget_ok L _ _ _ E). cbn [negb rbind].
      do 2 eexists. split; [reflexivity|]. apply add_ok; auto.
      + split; [lia|]. split; [now apply present_lt in E|]. exists o. split; auto. lia.
      + intros V x Hx D. cbn [defined_at] in D. now replace (o_nvars o + k - k)%nat with (o_nvars o) in D by lia.
    - intros H. unfold add_repeating, is_valid_oracle_id. now rewrite (proj2 (Nat.ltb_ge _ _)).
  Qed.

  Theorem add_shifted_correct (os : oset L) i off b sv o : oset_ok os -> present os i o ->
    if ((b <=? o_nvars o) && (1 <=? off) && (off <? 2 ^ b))%nat
    then exists os' id, add_shifted os i off b sv = Ok (os', id) /\
           adds_oracle os os' id (o_nvars o) (fun V => shifted_value sv b off (V i))
    else add_shifted os i off b sv = Err.
  Proof.
    intros HO E. unfold add_shifted, n_vars_of, level_of. rewrite (valid_present _ _ _ E), (oget_ok L _ _ _ E). cbn [negb rbind].
    destruct (Nat.leb_spec b (o_nvars o)) as [H1|H1]; [rewrite (proj2 (Nat.ltb_ge (o_nvars o) b) H1)|now rewrite (proj2 (Nat.ltb_lt (o_nvars o) b) H1)].
    destruct off as [|off]; [reflexivity|]. cbn [Nat.eqb orb andb Nat.leb]. rewrite Nat.leb_antisym.
    destruct (Nat.ltb_spec (S off) (2 ^ b)) as [H2|H2]; cbn [negb]; auto.
    do 2 eexists. split; [reflexivity|]. apply add_ok; auto.
    split; [split; auto; lia|]. split; [now apply present_lt in E|]. exists o. auto.
  Qed.

  Theorem add_packed_correct (os : oset L) i d o : oset_ok os -> present os i o ->
    if (d <=? o_nvars o)%nat
    then exists os' id, add_packed os i d = Ok (os', id) /\
           adds_oracle os os' id (o_nvars o - d)
             (fun V x => sumn (2 ^ d) (fun k => Transparent.TowerBasisProps.basis_product L (o_level o) k * V i (x * 2 ^ d + k)%nat))
    else add_packed os i d = Err.
  Proof.
    intros HO E. unfold add_packed, n_vars_of, level_of. rewrite (valid_present _ _ _ E), (oget_ok L _ _ _ E). cbn [negb rbind].
    rewrite Nat.ltb_antisym. destruct (Nat.leb_spec d (o_nvars o)) as [H1|H1]; cbn [negb]; auto.
    do 2 eexists. split; [reflexivity|]. apply add_ok; auto.
    - split; [now apply present_lt in E|]. exists o. split; auto. lia.
    - intros V x Hx D. cbn [defined_at] in D. apply D. now apply nth_error_grow.
  Qed.

  Theorem add_projected_correct (os : oset L) i vs s o : oset_ok os -> present os i o ->
    if (s + length vs <=? o_nvars o)%nat
    then exists os' id, add_projected os i vs s = Ok (os', id) /\
           adds_oracle os os' id (o_nvars o - length vs)
             (fun V x => mle (V i) (vertex s x ++ vs ++ vertex (o_nvars o - length vs - s) (x / 2 ^ s)))
    else add_projected os i vs s = Err.
  Proof.
    intros HO E. unfold add_projected, n_vars_of, level_of. rewrite (valid_present _ _ _ E), (oget_ok L _ _ _ E). cbn [negb rbind].
    rewrite !Nat.ltb_antisym, (Nat.add_comm (length vs) s).
    destruct (Nat.leb_spec (s + length vs) (o_nvars o)) as [H1|H1]; cbn [negb].
    - rewrite (proj2 (Nat.leb_le (length vs) _)) by lia. cbn [negb].
      do 2 eexists. split; [reflexivity|]. apply add_ok; auto.
      split; [lia|]. split; [now apply present_lt in E|]. exists o. split; auto. lia.
    - destruct (length vs <=? o_nvars o)%nat; reflexivity.
  Qed.

  (** Projection of the last variables; too many values make the code subtract below zero. *)
  Theorem add_projected_last_vars_correct (os : oset L) i vs o : oset_ok os -> present os i o ->
    if (length vs <=? o_nvars o)%nat
    then exists os' id, add_projected_last_vars os i vs = Ok (os', id) /\
           adds_oracle os os' id (o_nvars o - length vs) (fun V x => mle (V i) (vertex (o_nvars o - length vs) x ++ vs))
    else add_projected_last_vars os i vs = Panic.
  Proof.
    intros HO E. unfold add_projected_last_vars, n_vars_of, level_of. rewrite (valid_present _ _ _ E), (oget_ok L _ _ _ E). cbn [negb rbind].
    rewrite !Nat.ltb_antisym. destruct (Nat.leb_spec (length vs) (o_nvars o)) as [H1|H1]; cbn [negb]; auto.
    replace (length vs + (o_nvars o - length vs) <=? o_nvars o)%nat with true by (symmetry; apply Nat.leb_le; lia). cbn [negb].
    do 2 eexists. split; [reflexivity|]. apply add_ok; auto.
    - split; [lia|]. split; [now apply present_lt in E|]. exists o. split; auto. lia.
    - intros V x Hx D. cbn [defined_at] in D. rewrite Nat.sub_diag in D. cbn [vertex] in D. now rewrite app_nil_r in D.
  Qed.

  Lemma check_n_vars_spec (os : oset L) n ids : (forall id, In id ids -> exists o, present os id o) ->
    check_n_vars os n ids = if forallb (fun id => match oget os id with Ok o => (o_nvars o =? n)%nat | _ => false end) ids then Ok tt else Err.
  Proof.
    induction ids as [|id ids IH]; intros H; cbn [check_n_vars forallb]; auto.
    destruct (H id (or_introl eq_refl)) as [o E]. unfold n_vars_of. rewrite (oget_ok L _ _ _ E). cbn [rbind].
    destruct (o_nvars o =? n)%nat; cbn [negb andb]; auto. apply IH. intros; apply H; now right.
  Qed.

  Lemma check_all (os : oset L) n ids : (forall id, In id ids -> exists o, present os id o /\ o_nvars o = n) ->
    check_n_vars os n ids = Ok tt.
  Proof.
    intros H. rewrite check_n_vars_spec by (intros id Hi; destruct (H id Hi) as (o & E & _); eauto).
    rewrite (proj2 (forallb_forall _ _)); auto. intros id Hi. destruct (H id Hi) as (o & E & En).
    rewrite (oget_ok L _ _ _ E). now apply Nat.eqb_eq.
  Qed.

  Lemma check_some (os : oset L) n ids : (forall id, In id ids -> exists o, present os id o) ->
    (exists id o, In id ids /\ present os id o /\ o_nvars o <> n) -> check_n_vars os n ids = Err.
  Proof.
    intros H (id & o & Hi & E & En). rewrite check_n_vars_spec by auto.
    destruct (forallb _ ids) eqn:EF; auto. apply (proj1 (forallb_forall _ _)) with (x := id) in EF; auto.
    rewrite (oget_ok L _ _ _ E) in EF. apply Nat.eqb_eq in EF. contradiction.
  Qed.

  Lemma rmap_ok {A B} (f : A -> res B) l : (forall a, In a l -> exists b, f a = Ok b) -> exists bs, rmap f l = Ok bs.
  Proof.
    induction l as [|a l IH]; intros H; cbn [rmap]; [eauto|]. destruct (H a (or_introl eq_refl)) as [b ->]. cbn [rbind].
    destruct IH as [bs ->]; [intros; apply H; now right|]. cbn [rbind]. eauto.
  Qed.

  Theorem add_linear_combination_correct (os : oset L) n off inner : oset_ok os ->
    (forall i c, In (i, c) inner -> exists o, present os i o /\ o_nvars o = n) ->
    exists os' id, add_linear_combination_with_offset os n off inner = Ok (os', id) /\
      adds_oracle os os' id n (fun V x => off + fold_right (fun ic acc => snd ic * V (fst ic) x + acc) 0 inner).
  Proof.
    intros HO HI. unfold add_linear_combination_with_offset.
    destruct (rmap_ok (fun ic => try l <- level_of os (fst ic); Ok (Nat.max l (min_level (snd ic)))) inner) as [ls ->].
    { intros [i c] Hi. destruct (HI i c Hi) as (o & E & _). unfold level_of. cbn [fst]. rewrite (oget_ok L _ _ _ E). cbn [rbind]. eauto. }
    cbn [rbind]. rewrite check_all.
    - cbn [rbind]. do 2 eexists. split; [reflexivity|]. apply add_ok; auto.
      split; auto. intros i c Hi. destruct (HI i c Hi) as (o & E & En). split; [now apply present_lt in E|]. exists o. auto.
    - intros id Hi. apply in_map_iff in Hi. destruct Hi as ([i c] & <- & Hi). apply (HI i c Hi).
  Qed.

  Theorem add_linear_combination_mismatch (os : oset L) n off inner :
    (forall i c, In (i, c) inner -> exists o, present os i o) ->
    (exists i c o, In (i, c) inner /\ present os i o /\ o_nvars o <> n) ->
    add_linear_combination_with_offset os n off inner = Err.
  Proof.
    intros HI (i & c & o & H1 & H2 & H3). unfold add_linear_combination_with_offset.
    destruct (rmap_ok (fun ic => try l <- level_of os (fst ic); Ok (Nat.max l (min_level (snd ic)))) inner) as [ls ->].
    { intros [i' c'] Hi. destruct (HI i' c' Hi) as (o' & E). unfold level_of. cbn [fst]. rewrite (oget_ok L _ _ _ E). cbn [rbind]. eauto. }
    cbn [rbind]. rewrite check_some; auto.
    - intros id Hi. apply in_map_iff in Hi. destruct Hi as ([i' c'] & <- & Hi). apply (HI i' c' Hi).
    - exists i, o. split; auto. apply (in_map fst _ _ H1).
  Qed.

  Lemma valid_nvars (c : circuit F) q vs : valid q c vs -> (n_vars c <= length q)%nat.
  Proof.
    revert vs. induction c as [|s c IH] using rev_ind; intros vs H; [cbn; lia|].
    apply valid_init in H. destruct H as (vs' & v & -> & H & E). rewrite n_vars_app. apply Nat.max_lub; [eauto|].
    destruct s as [i| | | |]; cbn [n_vars map var_bound fold_right]; try lia.
    cbn [step_val] in E. assert (i < length q)%nat by (apply nth_error_Some; congruence). cbn. lia.
  Qed.

  (** The composition is the one passed in, before the code optimizes it. *)
  Theorem add_composite_correct (os : oset L) n ids c : oset_ok os -> cwf F c ->
    (forall i, In i ids -> exists o, present os i o /\ o_nvars o = n) ->
    match add_composite_mle os n ids c with
    | Ok (os', id) =>
        id = length os /\ oset_ok os' /\ (exists o, os' = os ++ [Some o] /\ o_nvars o = n) /\
        forall V, consistent os' V -> forall x, (x < 2 ^ n)%nat ->
          (n_vars c <= length ids)%nat -> evaluate c (map (fun i => V i x) ids) = Some (V id x)
    | Err => (length ids < n_vars c)%nat
    | Panic => optimize false true c = None
    end.
  Proof.
    intros HO [NE W] HI. unfold add_composite_mle.
    destruct (rmap_ok (level_of os) ids) as [ls ->].
    { intros i Hi. destruct (HI i Hi) as (o & E & _). unfold level_of. rewrite (oget_ok L _ _ _ E). cbn [rbind]. eauto. }
    cbn [rbind]. rewrite check_all by auto. cbn [rbind]. destruct (optimize false true c) as [c'|] eqn:EO; auto.
    destruct (optimize_checked_correct F true c c') as [[NE' W'] HE]; auto; [intros _; apply TF_char2|split; auto|].
    destruct (Nat.ltb_spec (length ids) (n_vars c')) as [Hl|Hl].
    - destruct (Nat.lt_ge_cases (length ids) (n_vars c)) as [|Hc]; auto. exfalso.
      destruct (wf_evaluate L c (repeat 0 (length ids)) W) as [v Ev]; [now rewrite repeat_length|].
      apply HE in Ev. apply evaluate_valid in Ev. destruct Ev as (vs & Hv & _). apply valid_nvars in Hv. rewrite repeat_length in Hv. lia.
    - split; auto. split; [|split; [eexists; split; reflexivity|]].
      + apply oset_ok_snoc; auto. split; auto. split; auto. intros i Hi. destruct (HI i Hi) as (o & E & En).
        split; [now apply present_lt in E|]. exists o. auto.
      + intros V C x Hx HN. assert (D := C _ _ (nth_error_last _ _) x Hx). cbn [o_variant defined_at] in D.
        destruct (wf_evaluate L c (map (fun i => V i x) ids) W) as [v Ev]; [now rewrite map_length|].
        rewrite (HE _ _ Ev) in D. congruence.
  Qed.

  Theorem add_composite_mismatch (os : oset L) n ids c :
    (forall i, In i ids -> exists o, present os i o) -> (exists i o, In i ids /\ present os i o /\ o_nvars o <> n) ->
    add_composite_mle os n ids c = Err.
  Proof.
    intros HI HE. unfold add_composite_mle. destruct (rmap_ok (level_of os) ids) as [ls ->].
    { intros i Hi. destruct (HI i Hi) as (o & E). unfold level_of. rewrite (oget_ok L _ _ _ E). cbn [rbind]. eauto. }
    cbn [rbind]. now rewrite check_some.
  Qed.

  (** The index [2 ^ pad], one too many, is accepted and gives a column of zeros. *)
  Theorem add_zero_padded_correct (os : oset L) i pad nz s o : oset_ok os -> present os i o ->
    if ((s <=? o_nvars o) && (nz <=? 2 ^ pad))%nat
    then exists os' id, add_zero_padded os i pad nz s = Ok (os', id) /\
           adds_oracle os os' id (o_nvars o + pad)
             (fun V x => if ((x / 2 ^ s) mod 2 ^ pad =? nz)%nat
                         then V i (x mod 2 ^ s + 2 ^ s * (x / 2 ^ (s + pad)))%nat else 0)
    else add_zero_padded os i pad nz s = Err.
  Proof.
    intros HO E. unfold add_zero_padded, n_vars_of, level_of. rewrite (oget_ok L _ _ _ E). cbn [rbind].
    rewrite !Nat.ltb_antisym. destruct (Nat.leb_spec s (o_nvars o)) as [H1|H1]; cbn [negb andb]; auto.
    destruct (Nat.leb_spec nz (2 ^ pad)) as [H2|H2]; cbn [negb]; auto.
    do 2 eexists. split; [reflexivity|]. apply add_ok; auto.
    split; [lia|]. split; [now apply present_lt in E|]. exists o. split; auto. lia.
  Qed.

  (* ------------------------------------------------------------------ *)
  (** * Constraint sets (C67) *)

  Lemma position_spec id l : match position id l with
    | Some k => nth_error l k = Some id
    | None => ~ In id l
    end.
  Proof.
    induction l as [|a l IH]; cbn [position]; [tauto|]. destruct (Nat.eqb_spec a id) as [->|NE]; [reflexivity|].
    destruct (position id l) as [k|]; cbn [option_map nth_error]; [exact IH|]. intros [H|H]; auto.
  Qed.

  Lemma positions_spec ids l : (forall i, In i ids -> In i l) ->
    exists ps, positions ids l = Some ps /\ Forall2 (fun i p => nth_error l p = Some i) ids ps.
  Proof.
    unfold positions. induction ids as [|i ids IH]; intros H; cbn [omap]; [exists []; auto|].
    assert (S := position_spec i l). destruct (position i l) as [k|]; [|exfalso; apply S, H; now left].
    destruct IH as (ps & -> & HF); [intros; apply H; now right|]. eexists. split; [reflexivity|]. now constructor.
  Qed.

  Lemma insert_in a x l : In x (insert a l) <-> x = a \/ In x l.
  Proof.
    induction l as [|b l IH]; cbn [insert]; [cbn; intuition auto|]. destruct (a <=? b)%nat; cbn [In]; [intuition auto|].
    rewrite IH. intuition auto.
  Qed.
  Lemma sort_in x l : In x (sort l) <-> In x l.
  Proof. induction l as [|a l IH]; cbn [sort fold_right]; [tauto|]. rewrite insert_in, IH. cbn. intuition auto. Qed.

  Inductive increasing : list nat -> Prop :=
  | inc_nil : increasing []
  | inc_cons a l : (forall b, In b l -> (a < b)%nat) -> increasing l -> increasing (a :: l).
  Inductive nondecreasing : list nat -> Prop :=
  | nd_nil : nondecreasing []
  | nd_cons a l : (forall b, In b l -> (a <= b)%nat) -> nondecreasing l -> nondecreasing (a :: l).

  Lemma insert_sorted a l : nondecreasing l -> nondecreasing (insert a l).
  Proof.
    induction 1 as [|b l H HS IH]; cbn [insert]; [constructor; [intros ? []|constructor]|].
    destruct (Nat.leb_spec a b) as [Hl|Hl].
    - constructor; [|now constructor]. intros c [<-|Hc]; auto. specialize (H c Hc). lia.
    - constructor; auto. intros c Hc. apply insert_in in Hc. destruct Hc as [->|Hc]; [lia|auto].
  Qed.
  Lemma sort_sorted l : nondecreasing (sort l).
  Proof. induction l; cbn [sort fold_right]; [constructor|now apply insert_sorted]. Qed.

  Lemma dedup_spec l : nondecreasing l -> increasing (dedup l) /\ forall x, In x (dedup l) <-> In x l.
  Proof.
    induction 1 as [|a l H HS [IH1 IH2]]; [split; [constructor|tauto]|]. cbn [dedup]. destruct l as [|b l].
    - split; [constructor; [intros ? []|constructor]|tauto].
    - destruct (Nat.eqb_spec a b) as [->|NE].
      + split; auto. intros x. rewrite IH2. cbn [In]. intuition auto.
      + split.
        * constructor; auto. intros c Hc. apply IH2 in Hc. assert (H' := H b (or_introl eq_refl)). inversion HS; subst.
          destruct Hc as [<-|Hc]; [lia|]. specialize (H2 c Hc). lia.
        * intros x. cbn [In]. rewrite IH2. reflexivity.
  Qed.

  Lemma map_nth_positions (V : values L) x ids l ps : Forall2 (fun i p => nth_error l p = Some i) ids ps ->
    map (fun j => nth j (map (fun i => V i x) l) 0) ps = map (fun i => V i x) ids.
  Proof.
    induction 1 as [|i p ids ps H HF IH]; cbn [map]; auto. rewrite IH. f_equal.
    rewrite (nth_error_nth _ _ _ (map_nth_error (fun i => V i x) p l H)). reflexivity.
  Qed.

  Lemma positions_length (l : list nat) ids ps : Forall2 (fun i p => nth_error l p = Some i) ids ps ->
    length ps = length ids /\ forall j, In j ps -> (j < length l)%nat.
  Proof.
    induction 1 as [|i p ids ps H HF [I1 I2]]; cbn [length]; [split; auto; intros ? []|]. split; [lia|].
    intros j [<-|Hj]; auto. apply nth_error_Some. congruence.
  Qed.

  (** One constraint over the union of the oracles. *)
  Lemma regroup_correct (l : list nat) (u : ungrouped L) : wf (u_comp u) -> (n_vars (u_comp u) <= length (u_ids u))%nat ->
    (forall i, In i (u_ids u) -> In i l) ->
    exists c, regroup l u = Ok (c, u_sum u) /\ wf c /\ length c = length (u_comp u) /\
      forall V x, comp_at V l c x = comp_at V (u_ids u) (u_comp u) x.
  Proof.
    intros W N H. unfold regroup. destruct (positions_spec (u_ids u) l H) as (ps & -> & HF).
    destruct (positions_length l _ _ HF) as [LP LJ].
    destruct (proj1 (remap_vars_correct F (u_comp u) ps W)) as (c & -> & Wc & Lc & HE); [lia|].
    exists c. split; auto. split; auto. split; auto. intros V x. unfold comp_at. rewrite HE.
    - now rewrite (map_nth_positions V x _ _ _ HF).
    - intros j Hj. rewrite map_length. auto.
  Qed.

  Definition same_constraint (l : list nat) (u : ungrouped L) (c : circuit F * F) : Prop :=
    snd c = u_sum u /\ wf (fst c) /\ forall V x, comp_at V l (fst c) x = comp_at V (u_ids u) (u_comp u) x.

  (** C67: constraints over existing oracles of the same size [n], at least one of which names an
      oracle, are built into one set: over the oracles they name, each once and in increasing order,
      of [n] variables, and with the same constraints in the same order. *)
  Theorem build_one_correct (os : oset L) (b : builder L) n :
    (forall u, In u b -> ungrouped_ok os n u) -> (exists u, In u b /\ u_ids u <> []) ->
    exists s, build_one os b = Ok (Built s) /\ cs_nvars s = n /\ increasing (cs_ids s) /\
      (forall i, In i (cs_ids s) <-> exists u, In u b /\ In i (u_ids u)) /\
      Forall2 (same_constraint (cs_ids s)) b (cs_constraints s).
  Proof.
    intros HB (u0 & Hu0 & HE). unfold build_one.
    assert (IN : forall i, In i (concat (map u_ids b)) <-> exists u, In u b /\ In i (u_ids u)).
    { intros i. rewrite in_concat. split.
      - intros (l & Hl & Hi). apply in_map_iff in Hl. destruct Hl as (u & <- & Hu). eauto.
      - intros (u & Hu & Hi). exists (u_ids u). split; auto. now apply in_map. }
    destruct (concat (map u_ids b)) as [|a0 l0] eqn:EC.
    { exfalso. destruct (u_ids u0) as [|i ids] eqn:E0; [congruence|]. apply (IN i). exists u0. split; auto. rewrite E0. now left. }
    set (ids := a0 :: l0) in *. destruct (dedup_spec (sort ids) (sort_sorted ids)) as [D1 D2].
    assert (IN' : forall i, In i (dedup (sort ids)) <-> exists u, In u b /\ In i (u_ids u)).
    { intros i. now rewrite D2, sort_in. }
    set (l := dedup (sort ids)) in *.
    assert (PR : forall i, In i l -> exists o, present os i o /\ o_nvars o = n).
    { intros i Hi. apply IN' in Hi. destruct Hi as (u & Hu & Hi). destruct (HB u Hu) as (_ & _ & _ & H). now apply H. }
    assert (FV : forallb (is_valid_oracle_id os) ids = true).
    { apply forallb_forall. intros i Hi. apply IN in Hi. apply IN' in Hi. destruct (PR i Hi) as (o & E & _). now apply (valid_present os i o). }
    rewrite FV. cbn [negb].
    assert (NE : exists a l', l = a :: l').
    { destruct l as [|a l'] eqn:El; [|eauto]. exfalso. apply (D2 a0). apply sort_in. now left. }
    assert (EN : match l with [] => Ok 0%nat | id :: _ => n_vars_of os id end = Ok n).
    { destruct NE as (a & l' & El). destruct (PR a) as (oa & Ea & Na); [rewrite El; now left|]. rewrite El.
      unfold n_vars_of. rewrite (oget_ok L _ _ _ Ea). cbn [rbind]. now rewrite Na. }
    cbv zeta. fold l. rewrite EN. cbn [rbind]. rewrite check_all by auto. cbn [rbind].
    assert (RM : forall b', (forall u, In u b' -> In u b) -> exists cs, rmap (regroup l) b' = Ok cs /\ Forall2 (same_constraint l) b' cs).
    { induction b' as [|u b' IH]; intros HI; cbn [rmap]; [exists []; auto|].
      destruct (HB u (HI u (or_introl eq_refl))) as (W & _ & N & _).
      destruct (regroup_correct l u W N) as (c & -> & Wc & _ & HC).
      { intros i Hi. apply IN'. exists u. split; auto. apply HI. now left. }
      cbn [rbind]. destruct IH as (cs & -> & HF); [intros; apply HI; now right|]. cbn [rbind]. eexists. split; [reflexivity|].
      constructor; auto. split; auto. }
    destruct (RM b (fun u H => H)) as (cs & -> & HF). cbn [rbind]. eexists. split; [reflexivity|]. cbn [cs_nvars cs_ids cs_constraints].
    auto.
  Qed.

  (** No oracle named: reported as empty, whatever the constraints. *)
  Theorem build_one_empty (os : oset L) (b : builder L) : (forall u, In u b -> u_ids u = []) -> build_one os b = Ok Empty.
  Proof.
    intros H. unfold build_one. replace (concat (map u_ids b)) with (@nil nat); auto. symmetry.
    induction b as [|u b IH]; cbn [map concat]; auto. rewrite (H u) by now left. apply IH. intros; apply H; now right.
  Qed.

  (** The constraints of a set hold, as sumcheck claims or as claims on multilinear extensions. *)
  Definition set_sum_true (V : values L) (s : cset L) : Prop :=
    forall c, In c (cs_constraints s) -> sumn (2 ^ cs_nvars s) (comp_at V (cs_ids s) (fst c)) = snd c.
  Definition set_mle_true (V : values L) (p : list F) (s : cset L) : Prop :=
    forall c, In c (cs_constraints s) -> mle (comp_at V (cs_ids s) (fst c)) p = snd c.

  Lemma same_sum V n l b cs : Forall2 (same_constraint l) b cs ->
    (forall c, In c cs -> sumn (2 ^ n) (comp_at V l (fst c)) = snd c) <-> (forall u, In u b -> sum_true V n u).
  Proof.
    induction 1 as [|u c b cs (H1 & _ & H2) HF IH]; [split; intros ? ? []|].
    assert (E : sumn (2 ^ n) (comp_at V l (fst c)) = snd c <-> sum_true V n u).
    { unfold sum_true. rewrite H1. rewrite (sumn_ext _ _ _ (comp_at V (u_ids u) (u_comp u))) by (intros; apply H2). tauto. }
    split; intros H x [<-|Hx]; try (apply E; apply H; now left); try (apply IH; auto; intros; apply H; now right).
  Qed.
  Lemma same_mle V p l b cs : Forall2 (same_constraint l) b cs ->
    (forall c, In c cs -> mle (comp_at V l (fst c)) p = snd c) <-> (forall u, In u b -> mle_true V p u).
  Proof.
    induction 1 as [|u c b cs (H1 & _ & H2) HF IH]; [split; intros ? ? []|].
    assert (E : mle (comp_at V l (fst c)) p = snd c <-> mle_true V p u).
    { unfold mle_true. rewrite H1. rewrite (mle_ext F _ (comp_at V (u_ids u) (u_comp u))) by (intros; apply H2). tauto. }
    split; intros H x [<-|Hx]; try (apply E; apply H; now left); try (apply IH; auto; intros; apply H; now right).
  Qed.

  (** C67: the sumchecks handed over are what the verifier recorded, and are then forgotten. *)
  Theorem take_sumchecks_correct (st : vstate L) : vstate_ok st ->
    exists sets st', take_new_sumcheck_constraints st = Ok (sets, st') /\
      st_oracles st' = st_oracles st /\ st_committed st' = st_committed st /\ st_mles st' = st_mles st /\
      (forall n b, nth_error (st_sums st') n = Some b -> b = []) /\
      (forall s, In s sets -> cs_constraints s <> [] /\ increasing (cs_ids s) /\
         forall i, In i (cs_ids s) -> exists o, present (st_oracles st) i o /\ o_nvars o = cs_nvars s) /\
      forall V, (forall s, In s sets -> set_sum_true V s) <->
                (forall n b u, nth_error (st_sums st) n = Some b -> In u b -> sum_true V n u).
  Proof.
    intros (_ & HS & _). unfold take_new_sumcheck_constraints.
    assert (G : forall bs k, (forall n b u, nth_error bs n = Some b -> In u b -> ungrouped_ok (st_oracles st) (k + n) u /\ u_ids u <> []) ->
      exists sets, rmap (build_one (st_oracles st)) bs = Ok sets /\
        let out := concat (map (fun b => match b with Built s => [s] | Empty => [] end) sets) in
        (forall s, In s out -> cs_constraints s <> [] /\ increasing (cs_ids s) /\
           forall i, In i (cs_ids s) -> exists o, present (st_oracles st) i o /\ o_nvars o = cs_nvars s) /\
        forall V, (forall s, In s out -> set_sum_true V s) <-> (forall n b u, nth_error bs n = Some b -> In u b -> sum_true V (k + n) u)).
    { induction bs as [|b bs IH]; intros k HB; cbn [rmap].
      - exists []. split; auto. cbn. split; [intros ? []|]. intros V. split; [intros _ n b u E|intros _ ? []]. destruct n; discriminate.
      - destruct (IH (S k)) as (sets & E & H1 & H2).
        { intros n b' u En Hu. replace (S k + n)%nat with (k + S n)%nat by lia. apply (HB (S n) b' u); auto. }
        assert (HT : forall V, (forall n b' u, nth_error (b :: bs) n = Some b' -> In u b' -> sum_true V (k + n) u) <->
          (forall u, In u b -> sum_true V k u) /\ (forall n b' u, nth_error bs n = Some b' -> In u b' -> sum_true V (S k + n) u)).
        { intros V. split.
          - intros H. split.
            + intros u Hu. specialize (H 0%nat b u eq_refl Hu). now rewrite Nat.add_0_r in H.
            + intros n b' u En Hu. replace (S k + n)%nat with (k + S n)%nat by lia. now apply (H (S n) b').
          - intros [Ha Hb] [|n] b' u En Hu.
            + injection En as <-. rewrite Nat.add_0_r. auto.
            + replace (k + S n)%nat with (S k + n)%nat by lia. eapply Hb; eauto. }
        destruct b as [|u0 b'] eqn:Eb.
        + cbn [build_one map concat rbind]. rewrite E. cbn [rbind]. eexists. split; [reflexivity|]. cbn [map concat app]. split; auto.
          intros V. rewrite H2, HT. split; [intros H; split; [intros ? []|auto]|tauto].
        + rewrite <- Eb in *.
          destruct (build_one_correct (st_oracles st) b k) as (s & -> & N & I & M & F2).
          { intros u Hu. destruct (HB 0%nat b u eq_refl Hu) as [H _]. now rewrite Nat.add_0_r in H. }
          { exists u0. split; [rewrite Eb; now left|]. apply (HB 0%nat b u0 eq_refl). rewrite Eb. now left. }
          rewrite E. cbn [rbind]. eexists. split; [reflexivity|]. cbn [map concat app]. split.
          * intros s' [<-|Hs]; [|now apply H1]. split; [|split; auto].
            -- intros En. rewrite En in F2. inversion F2. congruence.
            -- intros i Hi. apply M in Hi. destruct Hi as (u & Hu & Hi). destruct (HB 0%nat b u eq_refl Hu) as [(_ & _ & _ & H) _].
               rewrite Nat.add_0_r in H. rewrite N. now apply H.
          * intros V. rewrite HT, <- H2, <- (same_sum V k _ _ _ F2), <- N. split.
            -- intros H. split; [apply (H s); now left|intros; apply H; now right].
            -- intros [Ha Hb] s' [<-|Hs]; [exact Ha|now apply Hb]. }
    destruct (G (st_sums st) 0%nat HS) as (sets & -> & H1 & H2). cbn [rbind].
    do 2 eexists. split; [reflexivity|]. cbn [set_sums st_oracles st_committed st_mles st_sums]. repeat (split; [reflexivity|]).
    split; [|split; auto]. intros n b E. apply nth_error_In in E. now apply repeat_spec in E.
  Qed.

  (** The same for the claims on multilinear extensions of compositions; a point at which all
      compositions are over no oracle makes the call fail. *)
  Theorem take_mlechecks_correct (st : vstate L) : vstate_ok st ->
    (forall p b, In (p, b) (st_mles st) -> exists u, In u b /\ u_ids u <> []) ->
    exists sets st', take_new_mlechecks_constraints st = Ok (sets, st') /\
      st_oracles st' = st_oracles st /\ st_committed st' = st_committed st /\ st_sums st' = st_sums st /\ st_mles st' = [] /\
      map fst sets = map fst (st_mles st) /\
      (forall p s, In (p, s) sets -> cs_nvars s = length p /\ increasing (cs_ids s) /\
         forall i, In i (cs_ids s) -> exists o, present (st_oracles st) i o /\ o_nvars o = length p) /\
      forall V, (forall p s, In (p, s) sets -> set_mle_true V p s) <->
                (forall p b u, In (p, b) (st_mles st) -> In u b -> mle_true V p u).
  Proof.
    intros (_ & _ & HS & _) HN. unfold take_new_mlechecks_constraints.
    assert (G : forall bs, (forall pb, In pb bs -> In pb (st_mles st)) ->
      exists sets, rmap (fun pb => try b <- build_one (st_oracles st) (snd pb);
                                match b with Built s => Ok (fst pb, s) | Empty => Err end) bs = Ok sets /\
        map fst sets = map fst bs /\
        (forall p s, In (p, s) sets -> cs_nvars s = length p /\ increasing (cs_ids s) /\
           forall i, In i (cs_ids s) -> exists o, present (st_oracles st) i o /\ o_nvars o = length p) /\
        forall V, (forall p s, In (p, s) sets -> set_mle_true V p s) <-> (forall p b u, In (p, b) bs -> In u b -> mle_true V p u)).
    { induction bs as [|[p b] bs IH]; intros HI; cbn [rmap fst snd].
      - exists []. split; auto. split; auto. split; [intros ? ? []|]. intros V. split; intros _ ? ? ; [intros ? []|intros []].
      - assert (Hp := HI _ (or_introl eq_refl)).
        destruct (build_one_correct (st_oracles st) b (length p)) as (s & -> & N & I & M & F2); [intros u Hu; now apply (HS p b)|now apply (HN p)|].
        cbn [rbind]. destruct IH as (sets & -> & H0 & H1 & H2); [intros; apply HI; now right|]. cbn [rbind].
        eexists. split; [reflexivity|]. cbn [map fst]. split; [now rewrite H0|]. split.
        + intros p' s' [E|Hs]; [|now apply H1]. injection E as <- <-. split; auto. split; auto.
          intros i Hi. apply M in Hi. destruct Hi as (u & Hu & Hi). destruct (HS p b u Hp Hu) as (_ & _ & _ & H). now apply H.
        + intros V. split.
          * intros H p' b' u [E|Hb] Hu; [injection E as <- <-|].
            -- refine (proj1 (same_mle V p _ _ _ F2) _ u Hu). exact (H p s (or_introl eq_refl)).
            -- apply (proj1 (H2 V)) with b'; auto. intros; apply H; now right.
          * intros H p' s' [E|Hs]; [injection E as <- <-|].
            -- refine (proj2 (same_mle V p _ _ _ F2) _). intros u Hu. apply (H p b); auto. now left.
            -- apply (proj2 (H2 V)); auto. intros p1 b1 u Hb Hu. apply (H p1 b1); auto. now right. }
    destruct (G (st_mles st) (fun _ H => H)) as (sets & -> & H0 & H1 & H2). cbn [rbind].
    do 2 eexists. split; [reflexivity|]. cbn [set_mles st_oracles st_committed st_mles st_sums]. auto 10.
  Qed.
End Props.
