(** Proofs about the check of a witness (Cs/ValidateModel.v): packed words, and the check of one oracle. *)
Require Import Coq.NArith.NArith Coq.Arith.Arith Coq.Lists.List Coq.Bool.Bool Lia.
From Verif Require Import Transcript.SerProofs Base.Bits Base.Fld Base.Lists Base.Sums Math.MleSpec Math.MleModel Math.MleProps Math.TensorProps Math.ArithModel Math.ArithProofs Math.ArithProps
  Field.TowerModel Field.TowerProofs Transparent.TransparentModel Transparent.TransparentProps Transparent.TowerBasisProps Transparent.ShiftModel Compute.CircuitPolyModel
  Cs.ChannelModel Cs.ChannelProps Cs.FlushModel Cs.VerifyModel
  Evalcheck.OracleModel Evalcheck.SymbolicModel Evalcheck.EvalModel Evalcheck.EvalSpec Evalcheck.EvalMle Evalcheck.EvalProofs Cs.ValidateModel.
Import ListNotations.
Local Close Scope N_scope.
Local Open Scope nat_scope.

(* -------------------------------------------------------------------- *)
(** * Components of a word *)
Section Words.
  Variable L : nat.
  Notation F := (TF L).
  Local Open Scope fld_scope.
  Add Ring Fring : (f_ring F).

  Definition slice (l j : nat) (a : N) : N := N.land (N.shiftr a (N.of_nat (j * 2 ^ l))) (N.ones (N.of_nat (2 ^ l))).
  Lemma component_slice l j z : component L l j z = dec L (slice l j (enc L z)).
  Proof. reflexivity. Qed.
  Lemma nbits_nat l : nbits l = N.of_nat (2 ^ l).
  Proof. rewrite nbits_pow, Nat2N.inj_pow. reflexivity. Qed.
  Lemma slice_bit l j a i : N.testbit (slice l j a) i = (N.testbit a (i + N.of_nat (j * 2 ^ l)) && (i <? nbits l)%N)%bool.
  Proof. unfold slice. rewrite <- nbits_nat. change (N.land ?x (N.ones (nbits l))) with (trunc l x). now rewrite trunc_bit, testbit_shiftr. Qed.
  Lemma slice_inr l j a : inr l (slice l j a).
  Proof. unfold slice. rewrite <- nbits_nat. apply trunc_inr. Qed.
  Lemma slice_step l j a : slice (S l) j a = tadd (slice l (2 * j) a) (N.shiftl (slice l (2 * j + 1) a) (nbits l)).
  Proof.
    apply N.bits_inj. intros i. unfold tadd. rewrite N.lxor_spec, testbit_shiftl, !slice_bit, nbits_S.
    pose proof (nbits_nat l) as NB. cbn [Nat.pow].
    destruct (N.leb_spec (nbits l) i) as [GE|LT].
    - replace (i <? nbits l)%N with false by (symmetry; apply N.ltb_ge; lia). rewrite andb_false_r, xorb_false_l. cbn [andb].
      replace ((2 * j + 1) * 2 ^ l)%nat with (j * (2 * 2 ^ l) + 2 ^ l)%nat by ring. rewrite Nat2N.inj_add, <- NB.
      replace (i - nbits l + (N.of_nat (j * (2 * 2 ^ l)) + nbits l))%N with (i + N.of_nat (j * (2 * 2 ^ l)))%N by lia.
      f_equal. destruct (N.ltb_spec i (nbits l + nbits l)), (N.ltb_spec (i - nbits l) (nbits l)); auto; lia.
    - cbn [andb]. rewrite xorb_false_r. replace (i <? nbits l)%N with true by (symmetry; apply N.ltb_lt; lia).
      replace (i <? nbits l + nbits l)%N with true by (symmetry; apply N.ltb_lt; lia). f_equal. f_equal. f_equal. f_equal. ring.
  Qed.
  Lemma component_step l j z : (l < L)%nat -> component L (S l) j z = component L l (2 * j) z + component L l (2 * j + 1) z * generator L l.
  Proof. intros H. rewrite !component_slice, slice_step, dec_add, dec_shift by (try exact H; apply slice_inr). reflexivity. Qed.
  Lemma component_full z : component L L 0 z = z.
  Proof.
    rewrite component_slice. replace (slice L 0 (enc L z)) with (enc L z); [apply dec_enc|]. apply N.bits_inj. intros i. rewrite slice_bit. cbn [Nat.mul]. change (N.of_nat 0) with 0%N. rewrite N.add_0_r.
    destruct (N.ltb_spec i (nbits L)) as [H|H]; [now rewrite andb_true_r|]. rewrite andb_false_r. apply (proj1 (inr_bits L (enc L z)) (enc_inr L z)). exact H.
  Qed.

  Lemma basis_zero l : basis_product L l 0 = 1.
  Proof. unfold basis_product. induction (L - l)%nat as [|k IH]; [apply prodn_0|]. rewrite prodn_S, IH, Nat.bits_0. ring. Qed.
  Lemma basis_one l : (l < L)%nat -> basis_product L l 1 = generator L l.
  Proof.
    intros H. unfold basis_product. replace (L - l)%nat with (S (L - S l)) by lia. generalize (L - S l)%nat as k.
    induction k as [|k IH].
    - rewrite prodn_S, prodn_0, Nat.add_0_r. change (Nat.testbit 1 0) with true. cbv iota. ring.
    - rewrite prodn_S, IH. change 1%nat with (2 * 0 + 1)%nat at 1. rewrite Nat.testbit_odd_succ by lia. rewrite Nat.bits_0. ring.
  Qed.

  (** A scalar of a word at a higher level is the combination of those at a lower level with the basis elements. *)
  Lemma component_packed d : forall l j z, (l + d <= L)%nat ->
    component L (l + d) j z = sumn (2 ^ d) (fun k => basis_product L l k * component L l (j * 2 ^ d + k) z).
  Proof.
    induction d as [|d IH]; intros l j z H.
    - cbn [Nat.pow]. rewrite sumn_S, sumn_0, basis_zero, Nat.add_0_r, Nat.mul_1_r, Nat.add_0_r. ring.
    - replace (l + S d)%nat with (S l + d)%nat by lia. rewrite IH by lia. cbn [Nat.pow]. rewrite sumn_double. apply sumn_ext. intros k Hk.
      destruct (basis_product_step L l k ltac:(lia)) as [-> ->]. rewrite basis_one, component_step by lia.
      replace (j * (2 * 2 ^ d) + 2 * k)%nat with (2 * (j * 2 ^ d + k))%nat by lia. replace (j * (2 * 2 ^ d) + (2 * k + 1))%nat with (2 * (j * 2 ^ d + k) + 1)%nat by lia. ring.
  Qed.
  Lemma component_inj l z z' : (l <= L)%nat -> (forall j, (j < 2 ^ (L - l))%nat -> component L l j z = component L l j z') -> z = z'.
  Proof.
    intros H E. assert (C : forall z, z = sumn (2 ^ (L - l)) (fun k => basis_product L l k * component L l (0 * 2 ^ (L - l) + k) z)).
    { intros y. rewrite <- component_packed by lia. replace (l + (L - l))%nat with L by lia. symmetry. apply component_full. }
    rewrite (C z), (C z'). apply sumn_ext. intros k Hk. now rewrite E by (rewrite Nat.mul_0_l; exact Hk).
  Qed.

  (** a witness entry as the constructors make them *)
  Definition entry_ok (e : entry L) : Prop := (en_level L e <= L)%nat /\ length (en_words L e) = (2 ^ (en_nvars L e - (L - en_level L e)))%nat.
  Definition cell_of (e : entry L) (x : nat) : F := nth x (en_evals L e) 0.

  Lemma nth_flat {A} (f : A -> list F) m a : (forall x, length (f x) = m) -> forall l i, (i < length l * m)%nat -> nth i (flat_map f l) 0 = nth (i mod m) (f (nth (i / m) l a)) 0.
  Proof.
    intros Hm. induction l as [|x l IH]; intros i Hi; [cbn in Hi; lia|]. cbn [length Nat.mul] in Hi. cbn [flat_map].
    assert (m <> 0)%nat by (intros ->; lia). destruct (Nat.lt_ge_cases i m) as [LT|GE].
    - rewrite app_nth1 by (rewrite Hm; exact LT). now rewrite Nat.mod_small, Nat.div_small by lia.
    - rewrite app_nth2 by (rewrite Hm; exact GE). rewrite Hm, IH by lia. replace i with ((i - m) + 1 * m)%nat at 3 4 by lia.
      rewrite Nat.mod_add, Nat.div_add by lia. rewrite Nat.add_1_r. reflexivity.
  Qed.
  Lemma flat_length {A} (f : A -> list F) m : (forall x, length (f x) = m) -> forall l, length (flat_map f l) = (length l * m)%nat.
  Proof. intros Hm. induction l as [|x l IH]; cbn [flat_map length]; [reflexivity|]. rewrite app_length, Hm, IH. lia. Qed.

  Lemma evals_length e : length (en_evals L e) = (length (en_words L e) * 2 ^ (L - en_level L e))%nat.
  Proof. unfold en_evals. apply flat_length. intros x. now rewrite map_length, seq_length. Qed.
  Lemma cell_component e x : (x < length (en_words L e) * 2 ^ (L - en_level L e))%nat ->
    cell_of e x = component L (en_level L e) (x mod 2 ^ (L - en_level L e)) (nth (x / 2 ^ (L - en_level L e)) (en_words L e) 0).
  Proof.
    intros H. unfold cell_of, en_evals. rewrite (nth_flat _ (2 ^ (L - en_level L e)) 0) by (try exact H; intros y; now rewrite map_length, seq_length).
    pose proof (Nat.mod_upper_bound x (2 ^ (L - en_level L e)) ltac:(apply Nat.pow_nonzero; lia)) as B.
    rewrite (nth_indep _ _ (component L (en_level L e) 0 (nth (x / 2 ^ (L - en_level L e)) (en_words L e) 0))) by (rewrite map_length, seq_length; exact B).
    rewrite (map_nth (fun j => component L (en_level L e) j (nth (x / 2 ^ (L - en_level L e)) (en_words L e) 0))), seq_nth by exact B. reflexivity.
  Qed.

  Lemma entry_mle_wf e : entry_ok e -> mle_wf (F := F) (L - en_level L e) (en_mle L e).
  Proof. intros [H1 H2]. unfold mle_wf, en_mle. cbn [me_evals me_mu]. rewrite evals_length, H2. reflexivity. Qed.
  Lemma value_spec e i : entry_ok e -> value L e i = if (i <? 2 ^ en_nvars L e)%nat then Ok (cell_of e i) else Err.
  Proof. intros H. unfold value. rewrite (evaluate_on_hypercube_correct F _ _ _ (entry_mle_wf e H)). reflexivity. Qed.
  Lemma value_in e i : entry_ok e -> (i < 2 ^ en_nvars L e)%nat -> value L e i = Ok (cell_of e i).
  Proof. intros H Hi. rewrite (value_spec e i H). now rewrite (proj2 (Nat.ltb_lt _ _) Hi). Qed.

  Lemma rows_below e x : entry_ok e -> (x < 2 ^ en_nvars L e)%nat -> (x < length (en_words L e) * 2 ^ (L - en_level L e))%nat.
  Proof. intros H Hx. pose proof (wf_ge F _ _ (entry_mle_wf e H)) as G. unfold en_mle in G. cbn [me_evals me_mu] in G. rewrite evals_length in G. lia. Qed.

  (** Two columns with the same memory: the one of the higher level is the packed one. *)
  Lemma packed_words u e d : entry_ok u -> entry_ok e -> en_level L e = (en_level L u + d)%nat -> en_nvars L u = (en_nvars L e + d)%nat ->
    (L - en_level L e <= en_nvars L e)%nat \/ en_words L u = en_words L e ->
    (en_words L u = en_words L e <->
     forall x, (x < 2 ^ en_nvars L e)%nat -> cell_of e x = sumn (2 ^ d) (fun k => basis_product L (en_level L u) k * cell_of u (x * 2 ^ d + k))).
  Proof.
    intros HU HE EL EN FULL. pose proof HU as [U1 U2]. pose proof HE as [E1 E2].
    assert (M : (2 ^ (L - en_level L u) = 2 ^ (L - en_level L e) * 2 ^ d)%nat) by (rewrite <- Nat.pow_add_r; f_equal; lia).
    assert (PD : (0 < 2 ^ d)%nat) by (apply Nat.neq_0_lt_0, Nat.pow_nonzero; lia).
    assert (PM : (0 < 2 ^ (L - en_level L e))%nat) by (apply Nat.neq_0_lt_0, Nat.pow_nonzero; lia).
    assert (LW : length (en_words L u) = length (en_words L e)) by (rewrite U2, E2; f_equal; lia).
    assert (CU : forall x k, (x < length (en_words L e) * 2 ^ (L - en_level L e))%nat -> (k < 2 ^ d)%nat ->
       cell_of u (x * 2 ^ d + k) = component L (en_level L u) (x mod 2 ^ (L - en_level L e) * 2 ^ d + k) (nth (x / 2 ^ (L - en_level L e)) (en_words L u) 0)).
    { intros x k Hx Hk. rewrite cell_component by (rewrite LW, M; nia). rewrite M.
      pose proof (Nat.div_mod x (2 ^ (L - en_level L e)) ltac:(lia)) as DM. pose proof (Nat.mod_upper_bound x (2 ^ (L - en_level L e)) ltac:(lia)) as B.
      replace ((x * 2 ^ d + k) mod (2 ^ (L - en_level L e) * 2 ^ d))%nat with (x mod 2 ^ (L - en_level L e) * 2 ^ d + k)%nat
        by (apply Nat.mod_unique with (x / 2 ^ (L - en_level L e))%nat; nia).
      replace ((x * 2 ^ d + k) / (2 ^ (L - en_level L e) * 2 ^ d))%nat with (x / 2 ^ (L - en_level L e))%nat
        by (apply Nat.div_unique with (x mod 2 ^ (L - en_level L e) * 2 ^ d + k)%nat; nia). reflexivity. }
    split.
    - intros EW x Hx. pose proof (rows_below e x HE Hx) as RB. rewrite cell_component by exact RB. rewrite EL at 1. rewrite component_packed by lia. apply sumn_ext. intros k Hk.
      now rewrite CU, EW by assumption.
    - intros H. destruct FULL as [FULL|FULL]; [|exact FULL]. apply (nth_ext _ _ 0 0 LW). intros y Hy. rewrite LW in Hy.
      apply component_inj with (l := en_level L e); [exact E1|]. intros j Hj.
      assert (N2 : (2 ^ en_nvars L e = length (en_words L e) * 2 ^ (L - en_level L e))%nat) by (rewrite E2, <- Nat.pow_add_r; f_equal; lia).
      assert (Hx : (y * 2 ^ (L - en_level L e) + j < length (en_words L e) * 2 ^ (L - en_level L e))%nat) by nia.
      specialize (H (y * 2 ^ (L - en_level L e) + j)%nat ltac:(rewrite N2; exact Hx)). rewrite cell_component in H by exact Hx.
      replace ((y * 2 ^ (L - en_level L e) + j) mod 2 ^ (L - en_level L e))%nat with j in H by (apply Nat.mod_unique with y; lia).
      replace ((y * 2 ^ (L - en_level L e) + j) / 2 ^ (L - en_level L e))%nat with y in H by (apply Nat.div_unique with j; lia).
      rewrite H. rewrite EL at 1. rewrite component_packed by lia. apply sumn_ext. intros k Hk. rewrite CU by assumption.
      replace ((y * 2 ^ (L - en_level L e) + j) mod 2 ^ (L - en_level L e))%nat with j by (apply Nat.mod_unique with y; lia).
      now replace ((y * 2 ^ (L - en_level L e) + j) / 2 ^ (L - en_level L e))%nat with y by (apply Nat.div_unique with j; lia).
  Qed.
End Words.

(* -------------------------------------------------------------------- *)
(** * Loops *)
Section Loops.
  Variable L : nat.
  Notation F := (TF L).

  Lemma all_ok_iff {A} (f : A -> res unit) l : all_ok f l = Ok tt <-> forall a, In a l -> f a = Ok tt.
  Proof.
    induction l as [|a l IH]; cbn [all_ok]; [split; [intros _ a []|reflexivity]|].
    destruct (f a) as [[]| |] eqn:E; cbn [rbind].
    - rewrite IH. split; [intros H b [<-|HI]; auto|intros H b HI; apply H; now right].
    - split; [discriminate|]. intros H. rewrite <- E. apply H. now left.
    - split; [discriminate|]. intros H. rewrite <- E. apply H. now left.
  Qed.
  Lemma all_rows_iff (f : nat -> res unit) a n : all_ok f (seq a n) = Ok tt <-> forall i, a <= i < a + n -> f i = Ok tt.
  Proof. rewrite all_ok_iff. split; intros H i Hi; apply H; [apply in_seq|apply in_seq in Hi]; lia. Qed.
  Lemma check_eval_iff (a b : F) : check_eval L (Ok a) (Ok b) = Ok tt <-> a = b.
  Proof.
    unfold check_eval. cbn [rbind]. destruct (feqb a b) eqn:E; split; intros H; try discriminate; auto.
    - now apply f_eqb.
    - apply f_eqb in H. congruence.
  Qed.
  Lemma check_eval_res (a : res F) b : check_eval L a (Ok b) = Ok tt <-> a = Ok b.
  Proof. destruct a as [a| |]; [rewrite check_eval_iff; split; [intros ->; reflexivity|apply SerProofs.ok_inj]|split; discriminate|split; discriminate]. Qed.
End Loops.

(* -------------------------------------------------------------------- *)
(** * One oracle *)
Section Oracle.
  Variable L : nat.
  Notation F := (TF L).
  Local Open Scope fld_scope.
  Add Ring Fring2 : (f_ring F).

  (** the values of the columns *)
  Definition witness_values (w : index L) : values L := fun id x => match w id with Some e => cell_of L e x | None => 0 end.
  (** every entry is as its constructor makes it, and every oracle has one of its number of variables *)
  Definition entries_ok (w : index L) : Prop := forall id e, w id = Some e -> entry_ok L e.
  Definition columns_ok (os : oset L) (w : index L) : Prop :=
    forall id o, nth_error os id = Some (Some o) -> exists e, w id = Some e /\ en_nvars L e = o_nvars o.
  (** packed columns and those they are made of are stored at the levels of their oracles *)
  Definition packed_levels (os : oset L) (w : index L) : Prop :=
    forall id o i d inner, nth_error os id = Some (Some o) -> o_variant o = Packed i d -> nth_error os i = Some (Some inner) ->
      o_level o = (o_level inner + d)%nat /\ (forall e, w id = Some e -> en_level L e = o_level o) /\ (forall e, w i = Some e -> en_level L e = o_level inner).
  (** the circuit [c] of [n] variables is compiled to a polynomial with the same values *)
  Definition compiles (n : nat) (c : circuit F) : Prop :=
    cwf F c /\ (n_vars c <= n)%nat /\
    exists p, poly_with_n_vars true n c = Ok p /\ forall q v, length q = n -> evaluate c q = Some v -> poly_evaluate p q = Ok v.
  Definition composites_compile (os : oset L) : Prop :=
    forall id o m ids c, nth_error os id = Some (Some o) -> o_variant o = Composite m ids c -> compiles (length ids) c.
  (** the rows that are looked at *)
  Definition checked_rows (o : oracle L) : nat := match o_variant o with ZeroPadded _ pad _ _ => 2 ^ pad | _ => 2 ^ o_nvars o end.
  (** a packed column fills its memory; the block that is not padding exists *)
  Definition storable (o : oracle L) : Prop :=
    match o_variant o with Packed _ _ => (L - o_level o <= o_nvars o)%nat | ZeroPadded _ pad nz _ => (nz < 2 ^ pad)%nat | _ => True end.

  Lemma with_n_vars n (c : circuit F) p : poly_with_n_vars true n c = Ok p -> cp_n_vars p = n.
  Proof.
    unfold poly_with_n_vars. destruct (optimize false true c) as [e|]; [|discriminate]. destruct (n <? n_vars e)%nat; [discriminate|].
    destruct (convert_circuit_steps e) as [[s r]|]; [|discriminate]. intros H. apply ok_inj in H. now subst p.
  Qed.
  Lemma vertex_0 k : vertex (F := F) k 0 = repeat 0 k.
  Proof. induction k as [|k IH]; cbn [vertex repeat]; [reflexivity|]. change (0 / 2)%nat with 0%nat. rewrite IH. reflexivity. Qed.
  Lemma vertex_pad n m x : (x < 2 ^ n)%nat -> (n <= m)%nat -> vertex (F := F) m x = vertex n x ++ repeat 0 (m - n).
  Proof. intros Hx Hm. replace m with (n + (m - n))%nat at 1 by lia. rewrite vertex_app, (Nat.div_small x) by exact Hx. now rewrite vertex_0. Qed.
  Lemma rmap_all {A B} (f : A -> res B) g l : (forall a, In a l -> f a = Ok (g a)) -> rmap f l = Ok (map g l).
  Proof. induction l as [|a l IH]; intros H; cbn [rmap map]; [reflexivity|]. rewrite (H a (or_introl eq_refl)). cbn [rbind]. rewrite IH by (intros b HI; apply H; now right). reflexivity. Qed.
  Lemma fold_sum (V : values L) x (l : list (nat * F)) : forall a, fold_left fadd (map (fun ic => V (fst ic) x * snd ic) l) a = a + fold_right (fun ic acc => snd ic * V (fst ic) x + acc) 0 l.
  Proof. induction l as [|ic l IH]; intros a; cbn [map fold_left fold_right]; [ring|]. rewrite IH. ring. Qed.

  Lemma blocks_iff n b (Q : nat -> Prop) : (b <= n)%nat ->
    (forall start, In start (map (fun j => (j * 2 ^ b)%nat) (seq 0 ((2 ^ n + 2 ^ b - 1) / 2 ^ b))) -> forall y, (y < 2 ^ b)%nat -> Q (start + y)%nat) <-> (forall x, (x < 2 ^ n)%nat -> Q x).
  Proof.
    intros H. assert (PB : (0 < 2 ^ b)%nat) by (apply Nat.neq_0_lt_0, Nat.pow_nonzero; lia).
    assert (E : (2 ^ n = 2 ^ (n - b) * 2 ^ b)%nat) by (rewrite <- Nat.pow_add_r; f_equal; lia).
    replace ((2 ^ n + 2 ^ b - 1) / 2 ^ b)%nat with (2 ^ (n - b))%nat by (apply Nat.div_unique with (2 ^ b - 1)%nat; lia).
    split.
    - intros HB x Hx. pose proof (Nat.div_mod x (2 ^ b) ltac:(lia)) as DM. pose proof (Nat.mod_upper_bound x (2 ^ b) ltac:(lia)) as MB.
      rewrite DM, (Nat.mul_comm (2 ^ b)). apply HB; [|exact MB]. apply in_map_iff. exists (x / 2 ^ b)%nat. split; [reflexivity|]. apply in_seq. split; [lia|]. cbn [Nat.add].
      apply Nat.div_lt_upper_bound; lia.
    - intros HX start HI y Hy. apply in_map_iff in HI. destruct HI as (j & <- & HI). apply in_seq in HI. apply HX. nia.
  Qed.

  Variable uninit : nat -> list F.
  Hypothesis uninit_length : forall n, length (uninit n) = n.
  Variable os : oset L.
  Variable w : index L.
  Hypothesis OK : oset_ok os.
  Hypothesis WE : entries_ok w.
  Notation V := (witness_values w).

  Lemma validate_entry id o : validate_virtual L uninit os w id o = Ok tt -> exists e, w id = Some e /\ en_nvars L e = o_nvars o.
  Proof.
    unfold validate_virtual, get_entry. destruct (w id) as [e|]; cbn [rbind]; [|discriminate]. destruct (Nat.eqb_spec (en_nvars L e) (o_nvars o)); cbn [negb]; [|discriminate]. eauto.
  Qed.

  Hypothesis WC : columns_ok os w.
  Hypothesis WP : packed_levels os w.
  Hypothesis CC : composites_compile os.

  Lemma refers_entry id i m : refers os id i m -> exists u, w i = Some u /\ entry_ok L u /\ en_nvars L u = m.
  Proof. intros (_ & o & E & <-). destruct (WC i o E) as (u & Eu & N). eauto. Qed.
  Lemma values_cell id e x : w id = Some e -> V id x = cell_of L e x.
  Proof. intros E. unfold witness_values. now rewrite E. Qed.
  Definition ent (i : nat) : entry L := match w i with Some e => e | None => mkEntry L 0 0 [] end.
  Lemma ent_spec id i m : refers os id i m -> get_entry L w i = Ok (ent i) /\ en_nvars L (ent i) = m /\ forall x, (x < 2 ^ m)%nat -> value L (ent i) x = Ok (V i x).
  Proof.
    intros R. destruct (refers_entry id i m R) as (u & E & O & N). unfold ent, get_entry. rewrite E. split; [reflexivity|]. split; [exact N|]. intros x Hx.
    rewrite (values_cell i u x E). apply value_in; [exact O|]. now rewrite N.
  Qed.

  Lemma rows_iff (e : entry L) id n (f : nat -> res F) k (Q : nat -> Prop) : w id = Some e -> en_nvars L e = n -> (k <= 2 ^ n)%nat ->
    (forall x, (x < k)%nat -> (f x = Ok (V id x) <-> Q x)) ->
    (all_ok (fun i => check_eval L (f i) (value L e i)) (seq 0 k) = Ok tt <-> forall x, (x < k)%nat -> Q x).
  Proof.
    intros E N K HQ. rewrite all_rows_iff. split.
    - intros H x Hx. specialize (H x ltac:(lia)). rewrite (value_in L e x (WE id e E)) in H by (rewrite N; lia). apply check_eval_res in H. apply HQ; [exact Hx|]. now rewrite (values_cell id e x E).
    - intros H x Hx. rewrite (value_in L e x (WE id e E)) by (rewrite N; lia). apply check_eval_res. rewrite <- (values_cell id e x E). apply HQ; [lia|]. apply H. lia.
  Qed.
  Lemma ok_iff (a b : F) : Ok a = Ok b <-> b = a.
  Proof. split; [intros H; symmetry; now apply ok_inj|intros ->; reflexivity]. Qed.

  Lemma virtual_ok id o : nth_error os id = Some (Some o) ->
    (validate_virtual L uninit os w id o = Ok tt -> forall x, (x < checked_rows o)%nat -> defined_at os V id (o_nvars o) (o_variant o) x) /\
    (storable o -> (forall x, (x < checked_rows o)%nat -> defined_at os V id (o_nvars o) (o_variant o) x) -> validate_virtual L uninit os w id o = Ok tt).
  Proof.
    intros PO. pose proof (OK id o PO) as VO. destruct (WC id o PO) as (e & E & N). pose proof (WE id e E) as OE.
    unfold validate_virtual, storable, checked_rows. assert (GE : get_entry L w id = Ok e) by (unfold get_entry; now rewrite E). rewrite GE. cbn [rbind]. rewrite N, Nat.eqb_refl. cbn [negb].
    assert (IFF : forall (A B : Prop), (A <-> B) -> (A -> B) /\ (True -> B -> A)) by tauto.
    destruct (o_variant o) as [| p | c | i k | i vs s | i sh b sv | i d | m off inner | i pad nz s | m ids c] eqn:EV; cbn [variant_ok defined_at] in *.
    - split; auto.
    - apply IFF. apply (rows_iff e id (o_nvars o)); auto. reflexivity.
    - apply IFF. apply (rows_iff e id (o_nvars o)); auto. intros x Hx. rewrite (vertex_pad (o_nvars o) (n_vars c)) by (try exact Hx; apply VO).
      destruct (evaluate c _) as [v|]; split; intros H; try discriminate; [apply ok_inj in H; now rewrite H|injection H as ->; reflexivity].
    - destruct VO as (HK & R). destruct (ent_spec _ _ _ R) as (EG & EN & EVal). rewrite EG. cbn [rbind].
      assert (NV : n_vars_of os i = Ok (o_nvars o - k)%nat) by (destruct R as (_ & oi & Ei & Ni); unfold n_vars_of, oget; rewrite Ei; cbn [rbind]; now rewrite Ni).
      rewrite NV. cbn [rbind]. apply IFF. apply (rows_iff e id (o_nvars o)); auto. intros x Hx. rewrite EVal by (apply Nat.mod_upper_bound, Nat.pow_nonzero; lia). apply ok_iff.
    - destruct VO as (HS & R). destruct (refers_entry _ _ _ R) as (u & EU & OU & NU). unfold get_entry. rewrite EU. cbn [rbind].
      destruct (query_expand_correct F 0 vs) as (q & EQ & QH). rewrite EQ. cbn [rbind].
      pose proof (evaluate_partial_correct F (en_level L u =? L)%nat (L - en_level L u) 0 _ (en_mle L u) q vs s (uninit (2 ^ (en_nvars L u - length vs))) (entry_mle_wf L u OU) QH) as EP.
      cbn [en_mle me_mu] in EP. specialize (EP ltac:(intros T; apply Nat.eqb_eq in T; lia)). specialize (EP ltac:(rewrite uninit_length, Nat.sub_0_r; cbn [Nat.pow]; lia)).
      rewrite (proj2 (Nat.leb_le _ _)) in EP by lia. destruct EP as (m' & EM & WM & MU & TM). rewrite NU in *. replace (o_nvars o + length vs - length vs)%nat with (o_nvars o) in * by lia.
      rewrite EM. cbn [rbind].
      apply IFF. apply (rows_iff e id (o_nvars o)); auto. intros x Hx. rewrite (evaluate_on_hypercube_correct F 0 m' x WM), MU, (proj2 (Nat.ltb_lt _ _) Hx).
      replace (table m' x) with (mle (V i) (vertex s x ++ vs ++ vertex (o_nvars o - s) (x / 2 ^ s))); [apply ok_iff|].
      rewrite <- (mle_on_cube F (o_nvars o) (table m') x Hx). replace (o_nvars o) with (s + (o_nvars o - s))%nat at 2 by lia. rewrite vertex_app, TM by (rewrite ?vertex_length, ?MU; lia).
      apply mle_ext. intros y _. rewrite (values_cell i u y EU). reflexivity.
    - destruct VO as ((HB & HO) & R). destruct (ent_spec _ _ _ R) as (EG & EN & EVal). rewrite EG. cbn [rbind]. apply IFF.
      rewrite all_ok_iff. rewrite <- (blocks_iff (o_nvars o) b (fun x => V id x = shifted_value sv b sh (V i) x) HB).
      assert (PB : (0 < 2 ^ b)%nat) by (apply Nat.neq_0_lt_0, Nat.pow_nonzero; lia).
      assert (PE : (2 ^ o_nvars o = 2 ^ (o_nvars o - b) * 2 ^ b)%nat) by (rewrite <- Nat.pow_add_r; f_equal; lia).
      assert (BL : forall start, In start (map (fun j => (j * 2 ^ b)%nat) (seq 0 ((2 ^ o_nvars o + 2 ^ b - 1) / 2 ^ b))) -> (start mod 2 ^ b = 0)%nat /\ (start + 2 ^ b <= 2 ^ o_nvars o)%nat).
      { replace ((2 ^ o_nvars o + 2 ^ b - 1) / 2 ^ b)%nat with (2 ^ (o_nvars o - b))%nat by (apply Nat.div_unique with (2 ^ b - 1)%nat; lia).
        intros start HI. apply in_map_iff in HI. destruct HI as (j & <- & HI). apply in_seq in HI. split; [apply Nat.mod_mul; lia|]. nia. }
      assert (ONE : forall start, (start mod 2 ^ b = 0)%nat -> (start + 2 ^ b <= 2 ^ o_nvars o)%nat ->
        (match sv with
          | CircularLeft =>
              if (2 ^ b <? sh)%nat then Panic
              else all_ok (fun y => check_eval L (value L (ent i) (start + (y + (2 ^ b - sh)) mod 2 ^ b)%nat) (value L e (start + y)%nat)) (seq 0 (2 ^ b)%nat)
          | LogicalLeft =>
              try _ <- all_ok (fun y => check_eval L (Ok f0) (value L e (start + y)%nat)) (seq 0 sh);
              all_ok (fun y => check_eval L (value L (ent i) (start + y - sh)%nat) (value L e (start + y)%nat)) (seq sh (2 ^ b - sh)%nat)
          | LogicalRight =>
              if (2 ^ b <? sh)%nat then Panic
              else
              try _ <- all_ok (fun y => check_eval L (value L (ent i) (start + y + sh)%nat) (value L e (start + y)%nat)) (seq 0 (2 ^ b - sh)%nat);
              all_ok (fun y => check_eval L (Ok f0) (value L e (start + y)%nat)) (seq (2 ^ b - sh)%nat sh)
          end = Ok tt <-> forall y, (y < 2 ^ b)%nat -> V id (start + y)%nat = shifted_value sv b sh (V i) (start + y)%nat)).
      { intros start SM SB.
        assert (YM : forall y, (y < 2 ^ b)%nat -> ((start + y) mod 2 ^ b = y)%nat).
        { intros y Hy. rewrite <- Nat.add_mod_idemp_l, SM by lia. now apply Nat.mod_small. }
        assert (RI : forall a k (g : nat -> res F) (h : nat -> F), (a + k <= 2 ^ b)%nat -> (forall y, (a <= y < a + k)%nat -> g y = Ok (h y)) ->
           (all_ok (fun y => check_eval L (g y) (value L e (start + y)%nat)) (seq a k) = Ok tt <-> forall y, (a <= y < a + k)%nat -> V id (start + y)%nat = h y)).
        { intros a k g h HK HG. rewrite all_rows_iff. split; intros H y Hy; specialize (H y Hy).
          - rewrite (HG y Hy), (value_in L e _ OE) in H by (rewrite N; lia). apply check_eval_iff in H. now rewrite (values_cell id e _ E).
          - rewrite (HG y Hy), (value_in L e _ OE) by (rewrite N; lia). apply check_eval_iff. now rewrite <- (values_cell id e _ E). }
        assert (TRY : forall (a b : res unit), (try _ <- a; b) = Ok tt <-> a = Ok tt /\ b = Ok tt) by (intros [[]| |] b'; cbn [rbind]; split; intuition discriminate).
        destruct sv; cbn [shifted_value].
        - rewrite (proj2 (Nat.ltb_ge _ _)) by lia.
          rewrite (RI 0%nat (2 ^ b)%nat _ (fun y => V i (start + (y + (2 ^ b - sh)) mod 2 ^ b)%nat)); [|lia|].
          + split; intros H y Hy.
            * rewrite (YM y Hy), H by lia. f_equal. lia.
            * rewrite (H y ltac:(lia)), (YM y) by lia. f_equal. lia.
          + intros y Hy. apply EVal. pose proof (Nat.mod_upper_bound (y + (2 ^ b - sh)) (2 ^ b) ltac:(lia)). lia.
        - rewrite TRY, (RI 0%nat sh _ (fun _ => 0)), (RI sh (2 ^ b - sh)%nat _ (fun y => V i (start + y - sh)%nat)); [|lia|intros y Hy; apply EVal; lia|lia|reflexivity].
          split.
          + intros [H1 H2] y Hy. rewrite (YM y Hy). destruct (Nat.leb_spec sh y); [apply H2|apply H1]; lia.
          + intros H. split; intros y Hy; rewrite (H y ltac:(lia)), (YM y) by lia; destruct (Nat.leb_spec sh y); auto; lia.
        - rewrite (proj2 (Nat.ltb_ge _ _)) by lia.
          rewrite TRY, (RI 0%nat (2 ^ b - sh)%nat _ (fun y => V i (start + y + sh)%nat)), (RI (2 ^ b - sh)%nat sh _ (fun _ => 0)); [|lia|reflexivity|lia|intros y Hy; apply EVal; lia].
          split.
          + intros [H1 H2] y Hy. rewrite (YM y Hy). destruct (Nat.ltb_spec (y + sh) (2 ^ b)); [apply H1|apply H2]; lia.
          + intros H. split; intros y Hy; rewrite (H y ltac:(lia)), (YM y) by lia; destruct (Nat.ltb_spec (y + sh) (2 ^ b)); auto; lia. }
      split; intros H start HI; destruct (BL start HI) as (B1 & B2).
      + intros y Hy. apply (ONE start B1 B2); [|exact Hy]. exact (H start HI).
      + apply (ONE start B1 B2). exact (H start HI).
    - destruct (refers_entry _ _ _ VO) as (u & EU & OU & NU). unfold get_entry. rewrite EU. cbn [rbind]. destruct VO as (_ & oi & Ei & Ni).
      destruct (WP id o i d oi PO EV Ei) as (LV & LE & LU). specialize (LE e E). specialize (LU u EU).
      pose proof (packed_words L u e d OU OE ltac:(lia) ltac:(lia)) as PW.
      assert (DEF : (forall x, (x < 2 ^ o_nvars o)%nat -> forall inner, nth_error os i = Some (Some inner) -> V id x = sumn (2 ^ d) (fun k => basis_product L (o_level inner) k * V i (x * 2 ^ d + k)%nat)) <->
                    forall x, (x < 2 ^ en_nvars L e)%nat -> cell_of L e x = sumn (2 ^ d) (fun k => basis_product L (en_level L u) k * cell_of L u (x * 2 ^ d + k))).
      { rewrite N. split.
        - intros H x Hx. specialize (H x Hx oi Ei). rewrite (values_cell id e x E) in H. rewrite H, LU. apply sumn_ext. intros k _. now rewrite (values_cell i u _ EU).
        - intros H x Hx inner EI. rewrite Ei in EI. injection EI as <-. rewrite (values_cell id e x E), (H x Hx), LU. apply sumn_ext. intros k _. now rewrite (values_cell i u _ EU). }
      destruct (key_eqb F (en_words L u) (en_words L e)) eqn:KE.
      + apply key_eqb_spec in KE. split; [|auto]. intros _. apply DEF. apply PW; auto.
      + split; [discriminate|]. intros ST H. exfalso. assert (W : en_words L u = en_words L e) by (apply PW; [left; lia|now apply DEF]). apply (key_eqb_spec F) in W. congruence.
    - destruct VO as (HM & R).
      rewrite (rmap_all _ (fun ic => ent (fst ic))) by (intros [j c] HI; apply (ent_spec id j (o_nvars o)); eauto). cbn [rbind]. apply IFF.
      apply (rows_iff e id (o_nvars o)); auto. intros x Hx.
      replace (combine (map (fun ic => ent (fst ic)) inner) (map snd inner)) with (map (fun ic : nat * F => (ent (fst ic), snd ic)) inner) by (clear; induction inner as [|ic l IH]; cbn [map combine]; [reflexivity|now rewrite IH]).
      assert (RM : rmap (fun pc => try v <- value L (fst pc) x; Ok (fmul v (snd pc))) (map (fun ic : nat * F => (ent (fst ic), snd ic)) inner) = Ok (map (fun ic => V (fst ic) x * snd ic) inner)).
      { clear - R Hx WC WE. induction inner as [|[j c] l IH]; cbn [map rmap]; [reflexivity|]. cbn [fst snd].
        destruct (ent_spec id j (o_nvars o) (R j c (or_introl eq_refl))) as (_ & _ & EVal). rewrite (EVal x Hx). cbn [rbind]. rewrite IH by (intros j' c' HI; apply (R j' c'); now right). reflexivity. }
      rewrite RM. cbn [rbind]. rewrite (fold_sum V x inner off). apply ok_iff.
    - destruct VO as (HS & R). destruct (refers_entry _ _ _ R) as (u & EU & OU & NU). unfold get_entry. rewrite EU. cbn [rbind].
      destruct (Nat.lt_ge_cases nz (2 ^ pad)) as [HZ|HZ].
      + destruct (zero_pad_correct F (L - en_level L u) 0 (en_mle L u) pad s nz (entry_mle_wf L u OU)) as (m' & EM & WM & MU & TM & _); cbn [en_mle me_mu]; try lia.
        rewrite EM. cbn [rbind]. cbn [en_mle me_mu] in MU. rewrite NU in MU.
        assert (PK : (2 ^ pad <= 2 ^ o_nvars o)%nat) by (apply Nat.pow_le_mono_r; lia).
        match goal with |- (?A -> ?B) /\ _ => assert (AB : A <-> B) end; [|clear - AB; tauto].
        apply (rows_iff e id (o_nvars o)); auto. intros x Hx0. assert (Hx : (x < 2 ^ o_nvars o)%nat) by lia.
        rewrite (evaluate_on_hypercube_correct F 0 m' x WM), MU. replace (o_nvars o - pad + pad)%nat with (o_nvars o) by lia. rewrite (proj2 (Nat.ltb_lt _ _) Hx).
        assert (P1 : (2 ^ s <> 0)%nat) by (apply Nat.pow_nonzero; lia). assert (P2 : (2 ^ pad <> 0)%nat) by (apply Nat.pow_nonzero; lia).
        assert (EX : x = (x mod 2 ^ s + 2 ^ s * ((x / 2 ^ s) mod 2 ^ pad + 2 ^ pad * (x / 2 ^ (s + pad))))%nat).
        { rewrite Nat.pow_add_r, <- Nat.div_div by assumption. pose proof (Nat.div_mod x (2 ^ s) P1). pose proof (Nat.div_mod (x / 2 ^ s) (2 ^ pad) P2). lia. }
        rewrite EX at 1. rewrite TM.
        * cbn [table en_mle]. destruct ((x / 2 ^ s) mod 2 ^ pad =? nz)%nat; [|apply ok_iff]. rewrite (values_cell i u _ EU). apply ok_iff.
        * apply Nat.mod_upper_bound. exact P1.
        * apply Nat.mod_upper_bound. exact P2.
        * cbn [en_mle me_mu]. rewrite NU. apply Nat.div_lt_upper_bound; [apply Nat.pow_nonzero; lia|]. rewrite <- Nat.pow_add_r. replace (s + pad + (o_nvars o - pad - s))%nat with (o_nvars o) by lia. exact Hx.
      + split; [|lia]. unfold me_zero_pad. cbn [en_mle me_mu]. destruct (_ <? _)%nat; [discriminate|]. rewrite (proj2 (Nat.leb_le _ _) HZ). discriminate.
    - destruct VO as (HM & R & WF & NE & NV). destruct (CC id o m ids c PO EV) as (CW & CN & p & EP & CE).
      rewrite (rmap_all _ ent) by (intros j HI; apply (ent_spec id j (o_nvars o)); auto). cbn [rbind]. rewrite EP.
      assert (CO : composite_ok L (o_nvars o) p (map ent ids) = true).
      { unfold composite_ok. rewrite (with_n_vars _ _ _ EP), map_length, Nat.eqb_refl. cbn [andb]. apply forallb_forall. intros a HI. apply in_map_iff in HI. destruct HI as (j & <- & HI).
        apply Nat.eqb_eq. apply (ent_spec id j (o_nvars o)). auto. }
      rewrite CO. cbn [negb]. apply IFF. apply (rows_iff e id (o_nvars o)); auto. intros x Hx.
      assert (CA : composite_at L p (map ent ids) x = poly_evaluate p (map (fun i => V i x) ids)).
      { unfold composite_at. assert (RM : rmap (fun m0 => value L m0 x) (map ent ids) = Ok (map (fun i => V i x) ids)).
        { clear - R Hx WC WE. induction ids as [|j l IH]; cbn [map rmap]; [reflexivity|].
          destruct (ent_spec id j (o_nvars o) (R j (or_introl eq_refl))) as (_ & _ & EVal). rewrite (EVal x Hx). cbn [rbind]. rewrite IH by (intros j' HI; apply R; now right). reflexivity. }
        rewrite RM. reflexivity. }
      rewrite CA. destruct (evaluate_total F c (map (fun i => V i x) ids) WF ltac:(now rewrite map_length)) as (v & Ev).
      rewrite (CE (map (fun i => V i x) ids) v (map_length _ _) Ev), Ev. split; [intros H; apply ok_inj in H; now subst v|intros H; injection H as ->; reflexivity].
  Qed.
End Oracle.
