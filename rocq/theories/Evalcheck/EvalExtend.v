(** The values of oracles exist: an assignment consistent with a set of oracles extends to any larger
    well-formed set, with the values of new committed oracles chosen freely (C44). *)
Require Import Coq.setoid_ring.Ring Coq.Arith.Arith Coq.Lists.List Coq.Bool.Bool Lia.
From Verif Require Import Base.Fld Base.Lists Base.Sums Math.MleSpec Math.MleModel Math.ArithModel Math.ArithProofs
  Field.Quad Field.TowerProofs Transparent.TransparentModel Transparent.TransparentProps Transparent.TowerBasisProps
  Transparent.ShiftModel Evalcheck.OracleModel Evalcheck.EvalModel Evalcheck.EvalSpec Evalcheck.EvalProofs.
Import ListNotations.

Section Extend.
  Variable L : nat.
  Notation F := (TF L).
  Local Open Scope fld_scope.

  Lemma wf_evaluate (c : circuit F) q : wf c -> (n_vars c <= length q)%nat -> exists v, evaluate c q = Some v.
  Proof.
    intros W N. destruct (wf_evals F q c W N) as [vs H]. exists (last vs 0). apply evaluate_valid. eauto.
  Qed.

  Definition value_at (os : oset L) (V : values L) (w : nat -> F) (n : nat) (v : variant L) (x : nat) : F :=
    match v with
    | Committed => w x
    | Transparent p => match mv_eval p (vertex n x) with Ok y => y | _ => 0 end
    | Structured c => match evaluate c (vertex n x ++ repeat 0 (n_vars c - n)) with Some y => y | None => 0 end
    | Repeating i k => V i (x mod 2 ^ (n - k))%nat
    | Projected i vs s => mle (V i) (vertex s x ++ vs ++ vertex (n - s) (x / 2 ^ s))
    | Shifted i o b sv => shifted_value sv b o (V i) x
    | Packed i d => match nth_error os i with
        | Some (Some inner) => sumn (2 ^ d) (fun k => basis_product L (o_level inner) k * V i (x * 2 ^ d + k)%nat)
        | _ => 0
        end
    | LinearCombination _ off inner => off + fold_right (fun ic acc => snd ic * V (fst ic) x + acc) 0 inner
    | ZeroPadded i pad nz s =>
        if ((x / 2 ^ s) mod 2 ^ pad =? nz)%nat
        then V i (x mod 2 ^ s + 2 ^ s * (x / 2 ^ (s + pad)))%nat else 0
    | Composite _ ids c => comp_at V ids c x
    end.

  Lemma value_defined (os : oset L) V w id n v x : variant_ok os id n v -> (x < 2 ^ n)%nat ->
    V id x = value_at os V w n v x -> defined_at os V id n v x.
  Proof.
    destruct v as [|poly|circ|i k|i vs s|i off b sv|i d|m off inner|i pad nz s|m ids circ]; cbn [variant_ok value_at defined_at]; auto.
    - intros [t [_ HT]] Hx ->. now rewrite HT by apply vertex_length.
    - intros [Hn [t HT]] Hx ->. now rewrite HT by apply vertex_length.
    - intros (_ & oi & -> & _) Hx -> inner EI. injection EI as <-. reflexivity.
    - intros (_ & HR & W & NE & NV) Hx ->. unfold comp_at.
      destruct (wf_evaluate circ (map (fun i => V i x) ids) W) as [y ->]; auto. now rewrite map_length.
  Qed.

  Lemma value_agree (os : oset L) V V' w id n v x : variant_ok os id n v -> (forall i, (i < id)%nat -> V' i = V i) ->
    value_at os V' w n v x = value_at os V w n v x.
  Proof.
    intros K A.
    destruct v as [|poly|circ|i k|i vs s|i off b sv|i d|m off inner|i pad nz s|m ids circ]; cbn [variant_ok value_at] in *; auto.
    - now rewrite A by apply K.
    - now rewrite A by apply K.
    - now rewrite A by apply K.
    - now rewrite A by apply K.
    - f_equal. destruct K as [_ K]. induction inner as [|[i c] inner IH]; cbn [fold_right fst snd]; auto.
      rewrite IH by (intros; apply (K i0 c0); cbn; auto). rewrite A by (apply (K i c); cbn; auto). reflexivity.
    - now rewrite A by apply K.
    - unfold comp_at. destruct K as (_ & K & _). f_equal. rewrite (map_ext_in _ (fun i => V i x)); auto.
      intros i Hi. now rewrite A by now apply K.
  Qed.

  Lemma defined_agree (os ext : oset L) V V' id n v x : variant_ok os id n v -> (id < length os)%nat ->
    (forall i, (i <= id)%nat -> V' i = V i) -> defined_at os V id n v x -> defined_at (os ++ ext) V' id n v x.
  Proof.
    intros K Hid A.
    destruct v as [|poly|circ|i k|i vs s|i off b sv|i d|m off inner|i pad nz s|m ids circ]; cbn [variant_ok defined_at] in *; auto;
      rewrite ?(A id) by lia; auto.
    - now rewrite (A i) by (assert (H := proj1 (proj2 K)); lia).
    - now rewrite (A i) by (assert (H := proj1 (proj2 K)); lia).
    - now rewrite (A i) by (assert (H := proj1 (proj2 K)); lia).
    - rewrite (A i) by (assert (H := proj1 K); lia). destruct K as (Hlt & oi & Ei & _). intros H inner EI. apply H.
      rewrite nth_error_app1 in EI by lia. exact EI.
    - intros ->. f_equal. destruct K as [_ K]. induction inner as [|[i c] inner IH]; cbn [fold_right fst snd]; auto.
      rewrite IH by (intros; apply (K i0 c0); cbn; auto). rewrite A; auto.
      assert (H := proj1 (K i c (or_introl eq_refl))). lia.
    - now rewrite (A i) by (assert (H := proj1 (proj2 K)); lia).
    - intros H. rewrite <- H. f_equal. destruct K as (_ & K & _). apply map_ext_in. intros i Hi. rewrite A; auto.
      assert (X := proj1 (K i Hi)). lia.
  Qed.

  Lemma refers_prefix (os ext : oset L) id i m : (id <= length os)%nat -> refers (os ++ ext) id i m -> refers os id i m.
  Proof. intros H (Hi & o & E & En). split; auto. exists o. split; auto. rewrite nth_error_app1 in E by lia. exact E. Qed.

  Lemma variant_ok_prefix (os ext : oset L) id n v : (id <= length os)%nat -> variant_ok (os ++ ext) id n v -> variant_ok os id n v.
  Proof.
    intros H. destruct v; cbn [variant_ok]; auto.
    - intros [H1 H2]. split; auto. now apply (refers_prefix os ext).
    - intros [H1 H2]. split; auto. now apply (refers_prefix os ext).
    - intros [H1 H2]. split; auto. now apply (refers_prefix os ext).
    - now apply (refers_prefix os ext).
    - intros [H1 H2]. split; auto. intros i c HI. apply (refers_prefix os ext); eauto.
    - intros [H1 H2]. split; auto. now apply (refers_prefix os ext).
    - intros [H1 [H2 H3]]. split; auto. split; auto. intros i HI. apply (refers_prefix os ext); eauto.
  Qed.

  Lemma oset_ok_prefix (os ext : oset L) : oset_ok (os ++ ext) -> oset_ok os.
  Proof.
    intros H id o E. assert (Hl : (id < length os)%nat) by (apply nth_error_Some; congruence).
    apply (variant_ok_prefix os ext); [lia|]. apply H. now apply nth_error_grow.
  Qed.

  Lemma extend_one (os : oset L) (oo : option (oracle L)) (V W : values L) : oset_ok (os ++ [oo]) -> consistent os V ->
    exists V', consistent (os ++ [oo]) V' /\ (forall i, (i < length os)%nat -> V' i = V i) /\
      forall o, oo = Some o -> o_variant o = Committed -> V' (length os) = W (length os).
  Proof.
    intros HO C.
    set (w := match oo with Some o => value_at os V (W (length os)) (o_nvars o) (o_variant o) | None => V (length os) end).
    set (V' := fun i => if (i =? length os)%nat then w else V i).
    assert (A : forall i, (i < length os)%nat -> V' i = V i).
    { intros i Hi. unfold V'. destruct (Nat.eqb_spec i (length os)); [lia|auto]. }
    assert (N : V' (length os) = w) by (unfold V'; now rewrite Nat.eqb_refl).
    exists V'. split; [|split; auto].
    - intros id o E x Hx. destruct (Nat.lt_ge_cases id (length os)) as [Hl|Hl].
      + assert (E' : nth_error os id = Some (Some o)) by (now rewrite nth_error_app1 in E).
        apply (defined_agree os [oo] V V'); auto; [now apply (oset_ok_prefix os [oo])|intros i Hi; apply A; lia].
      + assert (K := HO _ _ E). rewrite nth_error_app2 in E by auto.
        destruct (id - length os)%nat as [|k] eqn:EK; cbn [nth_error] in E; [|destruct k; discriminate].
        injection E as ->. replace id with (length os) in * by lia.
        apply (value_defined _ _ (W (length os))); auto. rewrite N. unfold w.
        assert (K' := variant_ok_prefix os [Some o] _ _ _ (le_n _) K).
        rewrite <- (value_agree os V V' (W (length os)) (length os) (o_nvars o) (o_variant o) x K' A).
        destruct (o_variant o) as [|poly|circ|i k|i vs s|i off b sv|i d|m off inner|i pad nz s|m ids circ] eqn:EV; auto.
        cbn [value_at]. destruct K' as (Hlt & _). now rewrite nth_error_app1.
    - intros o -> EV. rewrite N. unfold w. rewrite EV. reflexivity.
  Qed.

  (** Every assignment consistent with a set of oracles extends to a larger well-formed set. *)
  Theorem consistent_extends (ext : oset L) : forall (os : oset L) (V W : values L), oset_ok (os ++ ext) -> consistent os V ->
    exists V', consistent (os ++ ext) V' /\ (forall i, (i < length os)%nat -> V' i = V i) /\
      forall i o, (length os <= i)%nat -> nth_error (os ++ ext) i = Some (Some o) -> o_variant o = Committed -> V' i = W i.
  Proof.
    induction ext as [|oo ext IH]; intros os V W HO C.
    - exists V. rewrite app_nil_r. split; auto. split; auto. intros i o Hi E. exfalso.
      assert (i < length os)%nat by (apply nth_error_Some; congruence). lia.
    - replace (os ++ oo :: ext) with ((os ++ [oo]) ++ ext) in * by now rewrite <- app_assoc.
      destruct (extend_one os oo V W (oset_ok_prefix _ _ HO) C) as (V1 & C1 & A1 & W1).
      destruct (IH (os ++ [oo]) V1 W HO C1) as (V2 & C2 & A2 & W2). exists V2. split; auto.
      rewrite app_length in A2, W2. cbn [length] in A2, W2. split.
      + intros i Hi. rewrite A2 by lia. now apply A1.
      + intros i o Hi E EV. destruct (Nat.eq_dec i (length os)) as [->|NE]; [|apply (W2 i o); auto; lia].
        rewrite A2 by lia. assert (E' : nth_error (os ++ [oo]) (length os) = Some oo) by apply nth_error_last.
        rewrite (nth_error_grow _ ext _ _ E') in E. injection E as ->. now apply (W1 o).
  Qed.

  (** Whatever the committed columns are, the virtual ones have values. *)
  Theorem consistent_exists (os : oset L) (W : values L) : oset_ok os ->
    exists V, consistent os V /\
      forall i o, nth_error os i = Some (Some o) -> o_variant o = Committed -> V i = W i.
  Proof.
    intros HO. destruct (consistent_extends os [] W W HO) as (V & C & _ & A).
    - intros id o E. destruct id; discriminate.
    - exists V. split; auto. intros i o. apply A. cbn. lia.
  Qed.

  Lemma block_index x y b n : (b <= n)%nat -> (x < 2 ^ n)%nat -> (y < 2 ^ b)%nat -> (x - x mod 2 ^ b + y < 2 ^ n)%nat.
  Proof.
    intros Hb Hx Hy. assert (P := Nat.pow_nonzero 2 b ltac:(lia)). assert (D := Nat.div_mod_eq x (2 ^ b)).
    assert (Q : (x / 2 ^ b < 2 ^ (n - b))%nat).
    { apply Nat.div_lt_upper_bound; auto. rewrite <- Nat.pow_add_r. now replace (b + (n - b))%nat with n by lia. }
    replace (2 ^ n)%nat with (2 ^ b * 2 ^ (n - b))%nat by (rewrite <- Nat.pow_add_r; f_equal; lia). nia.
  Qed.

  (** The committed columns determine the virtual ones. *)
  Theorem consistent_unique (os : oset L) (V V' : values L) : oset_ok os -> consistent os V -> consistent os V' ->
    (forall i o, nth_error os i = Some (Some o) -> o_variant o = Committed ->
       forall x, (x < 2 ^ o_nvars o)%nat -> V i x = V' i x) ->
    forall i o, nth_error os i = Some (Some o) -> forall x, (x < 2 ^ o_nvars o)%nat -> V i x = V' i x.
  Proof.
    intros HO C C' HC id. induction id as [id IH] using (well_founded_induction lt_wf). intros o E x Hx.
    assert (K := HO _ _ E). assert (D := C _ _ E x Hx). assert (D' := C' _ _ E x Hx). set (n := o_nvars o) in *.
    assert (R : forall i m, refers os id i m -> forall x, (x < 2 ^ m)%nat -> V i x = V' i x).
    { intros i m (Hlt & oi & Ei & En) y Hy. apply (IH i Hlt oi Ei). now rewrite En. }
    destruct (o_variant o) as [|poly|circ|i k|i vs s|i off b sv|i d|m off inner|i pad nz s|m ids circ] eqn:EV;
      cbn [variant_ok defined_at] in *.
    - now apply (HC id o).
    - congruence.
    - congruence.
    - rewrite D, D'. apply (R _ _ (proj2 K)). apply Nat.mod_upper_bound, Nat.pow_nonzero. lia.
    - rewrite D, D'. apply mle_ext. intros y Hy. apply (R _ _ (proj2 K)). rewrite !app_length, !vertex_length in Hy.
      now replace (n + length vs)%nat with (s + (length vs + (n - s)))%nat by lia.
    - rewrite D, D'. destruct K as [[Hb Ho] K]. unfold shifted_value. assert (P := Nat.pow_nonzero 2 b ltac:(lia)).
      assert (Hy := Nat.mod_upper_bound x (2 ^ b) P). assert (Hm := Nat.mod_le x (2 ^ b) P). set (y := (x mod 2 ^ b)%nat) in *.
      destruct sv.
      + apply (R _ _ K). unfold y. apply block_index; auto. now apply Nat.mod_upper_bound.
      + destruct (Nat.leb_spec off y); auto. apply (R _ _ K). lia.
      + destruct (Nat.ltb_spec (y + off) (2 ^ b)); auto. apply (R _ _ K).
        replace (x + off)%nat with (x - x mod 2 ^ b + (y + off))%nat by (fold y; lia). now apply block_index.
    - destruct K as (Hlt & oi & Ei & En). rewrite (D oi Ei), (D' oi Ei). apply sumn_ext. intros k Hk. f_equal.
      apply (R i (n + d)%nat); [split; eauto|]. rewrite Nat.pow_add_r. nia.
    - rewrite D, D'. f_equal. destruct K as [_ K]. clear D D' EV. induction inner as [|[i c] inner IHi]; cbn [fold_right fst snd]; auto.
      rewrite IHi by (intros; apply (K i0 c0); cbn; auto). now rewrite (R i n (K i c (or_introl eq_refl)) x Hx).
    - rewrite D, D'. destruct K as [Hs K]. destruct (_ =? nz)%nat; auto. apply (R _ _ K).
      assert (P := Nat.pow_nonzero 2 s ltac:(lia)). assert (Hy := Nat.mod_upper_bound x (2 ^ s) P).
      assert (Q : (x / 2 ^ (s + pad) < 2 ^ (n - (s + pad)))%nat).
      { apply Nat.div_lt_upper_bound; [apply Nat.pow_nonzero; lia|]. rewrite <- Nat.pow_add_r.
        now replace (s + pad + (n - (s + pad)))%nat with n by lia. }
      replace (2 ^ (n - pad))%nat with (2 ^ s * 2 ^ (n - (s + pad)))%nat by (rewrite <- Nat.pow_add_r; f_equal; lia). nia.
    - destruct K as (_ & K & _). rewrite (map_ext_in _ (fun i => V' i x)) in D; [congruence|].
      intros i Hi. now apply (R i n (K i Hi)).
  Qed.
End Extend.
