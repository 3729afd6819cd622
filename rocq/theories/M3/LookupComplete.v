(** C80, the prover's side: counting the lookups and filling the lookup table. *)
Require Import Coq.ZArith.ZArith Coq.NArith.NArith Coq.Arith.Arith Coq.Lists.List Coq.Bool.Bool Lia Coq.Sorting.Permutation.
From Verif Require Import Base.Fld Base.Lists Base.Sums Math.MleSpec Math.MleModel Math.ArithModel Math.ArithProofs Math.ArithProps Field.TowerModel Field.TowerProofs Field.Examples
  Transparent.TransparentModel Transparent.TransparentProps Transparent.TowerBasisProps Transparent.ShiftModel Sumcheck.ZerocheckModel Sumcheck.ZerocheckProps Gkr.ExpModel
  Evalcheck.OracleModel Evalcheck.EvalSpec Evalcheck.EvalProofs Cs.ChannelModel Cs.ChannelProps Cs.FlushModel Cs.FlushProofs
  M3.CompileModel M3.CompileSpec M3.RemapProofs M3.BuilderProofs M3.SystemProofs M3.CompileProps M3.LookupModel M3.LookupBits M3.LookupProps.
Import ListNotations.
Local Close Scope N_scope.
Local Close Scope Z_scope.
Local Open Scope nat_scope.

(* -------------------------------------------------------------------- *)
(** * Specification *)
Section Spec.
  Variable L : nat.
  Notation F := (TF L).

  (** What is pulled from channel [c]. *)
  Definition pulled (c : nat) (es : list (event F)) : list (event F) := filter (fun e => (ev_channel F e =? c) && is_pull (ev_dir F e)) es.
  (** How many of the tuples pulled from channel [c] have index [i]. *)
  Definition lookups (il : indexed L) (c i : nat) (es : list (event F)) : nat := length (filter (fun e => il_entry_to_index L il (ev_values F e) =? i) (pulled c es)).
  (** Flushes that pull from channel [c] have no selectors. *)
  Definition unselected (ts : list (tbl L)) (c : nat) : Prop :=
    forall t p f, In (t, p) (parts_of L ts) -> In f (p_flushes L p) -> tf_channel f = c -> tf_dir f = Pull -> tf_sels f = [].
End Spec.

(* -------------------------------------------------------------------- *)
(** * Counting *)
Lemma nth_of_error {A} (l : list A) i d : nth i l d = match nth_error l i with Some v => v | None => d end.
Proof. revert i. induction l as [|a l IH]; intros [|i]; cbn; auto. Qed.
Lemma bump_all_app c l l' : bump_all c (l ++ l') = rbind (bump_all c l) (fun c' => bump_all c' l').
Proof. revert c. induction l as [|i l IH]; intros c; [reflexivity|]. cbn [app bump_all]. destruct (bump c i); cbn [rbind]; [apply IH|reflexivity|reflexivity]. Qed.
Lemma bump_all_ok l : forall c, (forall i, In i l -> i < length c) -> (forall i, nth i c 0 < 2 ^ 32)%N ->
  exists c', bump_all c l = Ok c' /\ length c' = length c /\ forall i, i < length c -> nth i c' 0%N = ((nth i c 0 + N.of_nat (count_occ Nat.eq_dec l i)) mod 2 ^ 32)%N.
Proof.
  induction l as [|k l IH]; intros c HI HB.
  - exists c. split; [reflexivity|]. split; [reflexivity|]. intros i _. cbn [count_occ]. change (N.of_nat 0) with 0%N. rewrite N.add_0_r, N.mod_small by apply HB. reflexivity.
  - pose proof (HI k (or_introl eq_refl)) as Hk. cbn [bump_all]. unfold bump at 1. destruct (nth_error c k) as [v|] eqn:E; [|apply nth_error_None in E; lia]. cbn [rbind].
    set (c1 := upd c k ((v + 1) mod 2 ^ 32)%N). assert (L1 : length c1 = length c) by (unfold c1; apply upd_length).
    assert (N1 : forall i, nth i c1 0%N = if i =? k then ((v + 1) mod 2 ^ 32)%N else nth i c 0%N).
    { intros i. unfold c1. rewrite !nth_of_error. rewrite nth_error_upd, (proj2 (Nat.ltb_lt _ _) Hk). destruct (Nat.eqb_spec i k); reflexivity. }
    destruct (IH c1) as (c' & EC & LC & NC).
    + intros i Hi. rewrite L1. apply HI. now right.
    + intros i. rewrite N1. destruct (i =? k); [apply N.mod_lt; discriminate|apply HB].
    + exists c'. split; [exact EC|]. split; [lia|]. intros i Hi. rewrite NC, N1 by lia. cbn [count_occ]. destruct (Nat.eqb_spec i k) as [->|NE].
      * destruct (Nat.eq_dec k k) as [_|]; [|congruence]. rewrite (nth_error_nth _ _ _ E). rewrite N.add_mod_idemp_l by discriminate. f_equal. lia.
      * destruct (Nat.eq_dec k i) as [|_]; [congruence|]. reflexivity.
Qed.

Section Tally.
  Variable L : nat.
  Notation F := (TF L).
  Variable il : indexed L.
  Variable w : cells L.
  Variable chan : nat.
  Variable sizes : list nat.
  Let idx (e : event F) : nat := il_entry_to_index L il (ev_values F e).

  Lemma filter_flat {A B} (g : B -> bool) (f : A -> list B) l : filter g (flat_map f l) = flat_map (fun a => filter g (f a)) l.
  Proof. induction l as [|a l IH]; [reflexivity|]. cbn [flat_map]. rewrite filter_app. congruence. Qed.
  Lemma pulled_app c es es' : pulled L c (es ++ es') = pulled L c es ++ pulled L c es'.
  Proof. apply filter_app. Qed.

  Lemma is_pull_true d : is_pull d = true <-> d = Pull.
  Proof. destruct d; cbn; split; congruence. Qed.

  Lemma tally_flush_all t p f counts : (tf_channel f = chan -> tf_dir f = Pull -> tf_sels f = []) ->
    tally_flush L il w chan (size_of L sizes t) (p_lv L p) counts f = bump_all counts (map idx (pulled L chan (flush_sends L sizes w t p f))).
  Proof.
    intros NS. unfold tally_flush, pulled, flush_sends. destruct (_ && _) eqn:E.
    - apply andb_prop in E as [E1 E2]. pose proof E1 as E1'. apply Nat.eqb_eq in E1'. pose proof E2 as E2'. apply is_pull_true in E2'. rewrite (NS E1' E2'). cbn [forallb].
      set (g := list_prod _ _). assert (T : forall A (l : list A), filter (fun _ => true) l = l) by (induction l as [|? ? IH]; cbn; congruence). rewrite T.
      rewrite (filter_ext_in _ (fun _ => true)). 2: { intros e He. apply in_map_iff in He as (rj & <- & _). cbn [ev_channel ev_dir]. now rewrite E1, E2. }
      rewrite T. f_equal. rewrite map_map. unfold idx. cbn [ev_values]. set (m := 2 ^ p_lv L p). assert (Hm : m <> 0) by (unfold m; apply Nat.pow_nonzero; lia).
      rewrite <- (Nat.mul_0_l m) at 1. rewrite <- (grid (size_of L sizes t) m 0). fold m in g. fold g. rewrite map_map. apply map_ext_in. intros [r j] H. apply in_prod_iff in H as [_ Hj]. apply in_seq in Hj. cbn [fst snd].
      rewrite Nat.add_comm, Nat.div_add, Nat.mod_add, Nat.div_small, Nat.mod_small by lia. reflexivity.
    - assert (N : forall l, filter (fun e => (ev_channel F e =? chan) && is_pull (ev_dir F e)) (map (fun rj : nat * nat => mkEvent F (tf_channel f) (tf_dir f) (tf_mult f) (map (fun k => w k (fst rj) (snd rj)) (tf_cols f))) l) = []).
      { induction l as [|a l IH]; [reflexivity|]. cbn [map filter ev_channel ev_dir]. now rewrite E. }
      rewrite N. reflexivity.
  Qed.
  Lemma tally_flushes_all t p fs : (forall f, In f fs -> tf_channel f = chan -> tf_dir f = Pull -> tf_sels f = []) -> forall counts,
    tally_flushes L il w chan (size_of L sizes t) (p_lv L p) counts fs = bump_all counts (map idx (pulled L chan (flat_map (flush_sends L sizes w t p) fs))).
  Proof.
    intros NS. induction fs as [|f fs IH]; intros counts; [reflexivity|]. cbn [tally_flushes flat_map]. rewrite (tally_flush_all t p f) by (apply NS; now left). rewrite pulled_app, map_app, bump_all_app.
    destruct (bump_all counts _); cbn [rbind]; [|reflexivity|reflexivity]. apply IH. intros f' H. apply NS. now right.
  Qed.
  Let part_sends (tp : tbl L * part L) : list (event F) := flat_map (flush_sends L sizes w (fst tp) (snd tp)) (p_flushes L (snd tp)).
  Lemma tally_parts_all t ps : (forall p f, In p ps -> In f (p_flushes L p) -> tf_channel f = chan -> tf_dir f = Pull -> tf_sels f = []) -> forall counts,
    tally_parts L il w chan (size_of L sizes t) counts ps = bump_all counts (map idx (pulled L chan (flat_map part_sends (map (pair t) ps)))).
  Proof.
    intros NS. induction ps as [|p ps IH]; intros counts; [reflexivity|]. cbn [tally_parts flat_map map]. rewrite tally_flushes_all by (intros f; apply NS; now left). rewrite pulled_app, map_app, bump_all_app.
    unfold part_sends at 1. cbn [fst snd]. destruct (bump_all counts _); cbn [rbind]; [|reflexivity|reflexivity]. apply IH. intros p' f H. apply NS. now right.
  Qed.
  Lemma no_rows t p f : size_of L sizes t = 0 -> flush_sends L sizes w t p f = [].
  Proof. intros E. unfold flush_sends. now rewrite E. Qed.
  Lemma tally_tables_all ts : unselected L ts chan -> forall counts,
    tally_tables L il w chan sizes counts ts = bump_all counts (map idx (pulled L chan (flat_map part_sends (parts_of L ts)))).
  Proof.
    intros NS. induction ts as [|t ts IH]; intros counts; [reflexivity|]. cbn [tally_tables]. unfold CompileSpec.parts_of. cbn [map concat]. fold (parts_of L ts). rewrite flat_map_app, pulled_app, map_app, bump_all_app.
    assert (NS' : unselected L ts chan) by (intros t' p f H; apply (NS t' p f); unfold CompileSpec.parts_of; cbn [map concat]; apply in_or_app; now right). specialize (IH NS').
    change (nth (t_id L t) sizes 0) with (size_of L sizes t). destruct (Nat.eqb_spec (size_of L sizes t) 0) as [E|E].
    - assert (N : flat_map part_sends (map (pair t) (parts_list L t)) = []).
      { generalize (parts_list L t). intros ps. induction ps as [|p ps IHp]; [reflexivity|]. cbn [map flat_map]. rewrite IHp, app_nil_r. unfold part_sends. cbn [fst snd]. induction (p_flushes L p) as [|f fs IHf]; [reflexivity|]. cbn [flat_map]. now rewrite no_rows, IHf. }
      rewrite N. cbn [pulled filter map bump_all rbind]. apply IH.
    - rewrite tally_parts_all. 2: { intros p f Hp Hf. apply (NS t p f); [|exact Hf]. unfold CompileSpec.parts_of. cbn [map concat]. apply in_or_app. left. now apply in_map. }
      destruct (bump_all counts _); cbn [rbind]; [apply IH|reflexivity|reflexivity].
  Qed.
  Lemma tally_all ts bs : unselected L ts chan ->
    tally L il w chan ts sizes bs = bump_all (repeat 0%N (2 ^ il_log_size L il)) (map idx (pulled L chan (flat_map part_sends (parts_of L ts) ++ map (boundary_event F) bs))).
  Proof.
    intros NS. unfold tally. rewrite tally_tables_all by exact NS. rewrite pulled_app, map_app, bump_all_app. destruct (bump_all _ _); cbn [rbind]; [|reflexivity|reflexivity]. f_equal.
    unfold pulled. clear. induction bs as [|x bs IH]; [reflexivity|]. cbn [map filter boundary_event ev_channel ev_dir]. destruct (_ && _); cbn [map]; [|exact IH]. now rewrite IH.
  Qed.

  Lemma count_filter (l : list (event F)) i : count_occ Nat.eq_dec (map idx l) i = length (filter (fun e => idx e =? i) l).
  Proof. induction l as [|e l IH]; [reflexivity|]. cbn [map count_occ filter]. destruct (Nat.eq_dec (idx e) i) as [E|E], (Nat.eqb_spec (idx e) i); try congruence; cbn [length]; congruence. Qed.

  (** The counts are the numbers of lookups, modulo [2^32]. *)
  Theorem tally_correct ts bs : unselected L ts chan ->
    (forall e, In e (pulled L chan (table_events L ts sizes bs w)) -> il_entry_to_index L il (ev_values F e) < 2 ^ il_log_size L il) ->
    exists counts, tally L il w chan ts sizes bs = Ok counts /\ length counts = 2 ^ il_log_size L il /\
      forall i, i < 2 ^ il_log_size L il -> nth i counts 0%N = (N.of_nat (lookups L il chan i (table_events L ts sizes bs w)) mod 2 ^ 32)%N.
  Proof.
    intros NS IN. rewrite tally_all by exact NS. set (es := flat_map part_sends (parts_of L ts)) in *. change (table_events L ts sizes bs w) with (map (boundary_event F) bs ++ es) in *.
    destruct (bump_all_ok (map idx (pulled L chan (es ++ map (boundary_event F) bs))) (repeat 0%N (2 ^ il_log_size L il))) as (c & EC & LC & NC).
    - intros i Hi. rewrite repeat_length. apply in_map_iff in Hi as (e & <- & He). apply IN. rewrite pulled_app in *. apply in_app_or in He. apply in_or_app. tauto.
    - intros i. rewrite nth_repeat. reflexivity.
    - rewrite repeat_length in *. exists c. split; [exact EC|]. split; [exact LC|]. intros i Hi. rewrite NC by exact Hi. rewrite nth_repeat, N.add_0_l, count_filter. f_equal. f_equal. unfold lookups. fold idx. rewrite !pulled_app, !filter_app, !app_length. apply Nat.add_comm.
  Qed.
End Tally.

(* -------------------------------------------------------------------- *)
(** * Sums *)
Lemma in_numbered {A} (l : list A) : forall a i x, In (i, x) (combine (seq a (length l)) l) -> a <= i /\ nth_error l (i - a) = Some x.
Proof.
  induction l as [|y l IH]; intros a i x H; [destruct H|]. cbn [length seq combine] in H. destruct H as [H|H]; [injection H as -> ->; split; [lia|now rewrite Nat.sub_diag]|].
  destruct (IH _ _ _ H) as [H1 H2]. split; [lia|]. replace (i - a) with (S (i - S a)) by lia. exact H2.
Qed.
Lemma filter_short {A} (g : A -> bool) l : length (filter g l) <= length l.
Proof. induction l as [|a l IH]; cbn [filter length]; [lia|]. destruct (g a); cbn [length]; lia. Qed.
Definition zsum {A} (f : A -> Z) (l : list A) : Z := fold_right (fun a s => f a + s)%Z 0%Z l.
Definition k01 (b : bool) : Z := if b then 1%Z else 0%Z.
Lemma zsum_app {A} (f : A -> Z) l l' : zsum f (l ++ l') = (zsum f l + zsum f l')%Z.
Proof. induction l as [|a l IH]; cbn [app zsum fold_right]; [reflexivity|]. fold (zsum f (l ++ l')) (zsum f l). lia. Qed.
Lemma zsum_ext {A} (f g : A -> Z) l : (forall a, In a l -> f a = g a) -> zsum f l = zsum g l.
Proof. induction l as [|a l IH]; intros H; [reflexivity|]. cbn [zsum fold_right]. fold (zsum f l) (zsum g l). rewrite (H a (or_introl eq_refl)), IH; [reflexivity|]. intros a' Ha. apply H. now right. Qed.
Lemma zsum_add {A} (f g : A -> Z) l : zsum (fun a => f a + g a)%Z l = (zsum f l + zsum g l)%Z.
Proof. unfold zsum. induction l as [|a l IH]; cbn [fold_right]; lia. Qed.
Lemma zsum_zero {A} (l : list A) : zsum (fun _ => 0%Z) l = 0%Z.
Proof. unfold zsum. induction l as [|a l IH]; cbn [fold_right]; lia. Qed.
Section Zsum.
  Context {A B : Type}.
  Lemma zsum_perm (f : A -> Z) l l' : Permutation l l' -> zsum f l = zsum f l'.
  Proof. induction 1; unfold zsum in *; cbn [fold_right]; lia. Qed.
  Lemma zsum_map (f : B -> Z) (h : A -> B) l : zsum f (map h l) = zsum (fun a => f (h a)) l.
  Proof. induction l as [|a l IH]; [reflexivity|]. cbn [map zsum fold_right]. fold (zsum f (map h l)). now rewrite IH. Qed.
  Lemma zsum_scale (f : A -> Z) k l : zsum (fun a => k * f a)%Z l = (k * zsum f l)%Z.
  Proof. unfold zsum. induction l as [|a l IH]; cbn [fold_right]; lia. Qed.
  Lemma zsum_flat (f : B -> Z) (h : A -> list B) l : zsum f (flat_map h l) = zsum (fun a => zsum f (h a)) l.
  Proof. induction l as [|a l IH]; [reflexivity|]. cbn [flat_map]. rewrite zsum_app, IH. reflexivity. Qed.
  Lemma zsum_swap (f : A -> B -> Z) l l' : zsum (fun a => zsum (f a) l') l = zsum (fun b => zsum (fun a => f a b) l) l'.
  Proof.
    induction l as [|a l IH]; cbn [zsum fold_right]; [now rewrite zsum_zero|]. fold (zsum (fun a => zsum (f a) l') l). rewrite IH, <- zsum_add. apply zsum_ext. intros b _. reflexivity.
  Qed.
  Lemma zsum_filter (g : A -> bool) l : Z.of_nat (length (filter g l)) = zsum (fun a => k01 (g a)) l.
  Proof. induction l as [|a l IH]; [reflexivity|]. cbn [filter zsum fold_right]. fold (zsum (fun a => k01 (g a)) l). rewrite <- IH. destruct (g a); cbn [length k01]; lia. Qed.
End Zsum.
Lemma map_nth_seq {A} (l : list A) d : map (fun i => nth i l d) (seq 0 (length l)) = l.
Proof.
  induction l as [|a l IH]; [reflexivity|]. cbn [length seq map nth]. f_equal. rewrite <- seq_shift, map_map. exact IH.
Qed.
Lemma zsum_nth {A} (f : A -> Z) l d : zsum (fun r => f (nth r l d)) (seq 0 (length l)) = zsum f l.
Proof. rewrite <- (map_nth_seq l d) at 2. now rewrite zsum_map. Qed.
Lemma zsum_pick (f : nat -> Z) k n : forall a, zsum (fun i => f i * k01 (k =? i)%nat)%Z (seq a n) = if (a <=? k) && (k <? a + n) then f k else 0%Z.
Proof.
  induction n as [|n IH]; intros a; cbn [seq zsum fold_right]; [destruct (Nat.leb_spec a k), (Nat.ltb_spec k (a + 0)); cbn; try reflexivity; lia|]. fold (zsum (fun i => f i * k01 (k =? i)%nat)%Z (seq (S a) n)). rewrite IH.
  destruct (Nat.eqb_spec k a) as [->|NE]; cbn [k01].
  - rewrite (proj2 (Nat.leb_gt (S a) a)) by lia. rewrite Nat.leb_refl, (proj2 (Nat.ltb_lt a (a + S n))) by lia. cbn [andb]. lia.
  - replace (S a <=? k) with (a <=? k) by (destruct (Nat.leb_spec a k), (Nat.leb_spec (S a) k); try reflexivity; lia). replace (a + S n) with (S a + n) by lia. lia.
Qed.
Lemma combine_nth_seq (l : list N) : combine (seq 0 (length l)) l = map (fun i => (i, nth i l 0%N)) (seq 0 (length l)).
Proof.
  assert (H : forall l (l' : list nat) (h : nat -> nat), combine (map h (seq 0 (length l))) l = map (fun i => (h i, nth i l 0%N)) (seq 0 (length l))).
  { clear. intros l _. induction l as [|a l IH]; intros h; [reflexivity|]. cbn [length seq map combine nth]. f_equal. rewrite <- seq_shift, !map_map. rewrite (IH (fun i => h (S i))). reflexivity. }
  rewrite <- (H l [] (fun i => i)), map_id. reflexivity.
Qed.

(** The bits of a count add up to the count. *)
Lemma bits_mod (c : N) m : m <= 32 -> zsum (fun i => Z.of_N (multiplicity i) * k01 ((i <? 32)%nat && N.testbit c (N.of_nat i)))%Z (seq 0 m) = Z.of_N (c mod 2 ^ N.of_nat m).
Proof.
  induction m as [|m IH]; intros H; [cbn; now rewrite N.mod_1_r|]. rewrite seq_S, zsum_app, IH by lia. cbn [zsum fold_right Nat.add]. unfold multiplicity. rewrite Nat.mod_small, (proj2 (Nat.ltb_lt _ _)) by lia. cbn [andb].
  rewrite N.shiftl_1_l, Nat2N.inj_succ, N.pow_succ_r', (N.mul_comm 2), N.mod_mul_r by (try (apply N.pow_nonzero); discriminate).
  rewrite <- N.testbit_spec'. rewrite N2Z.inj_add, N2Z.inj_mul. destruct (N.testbit c (N.of_nat m)); cbn [k01 N.b2n]; lia.
Qed.
Lemma bits_total (c : N) m : (c < 2 ^ 32)%N -> (m < 32 -> (c < 2 ^ N.of_nat m)%N) ->
  zsum (fun i => Z.of_N (multiplicity i) * k01 ((i <? 32)%nat && N.testbit c (N.of_nat i)))%Z (seq 0 m) = Z.of_N c.
Proof.
  intros HC HM. destruct (Nat.lt_ge_cases m 32) as [H|H].
  - rewrite bits_mod by lia. rewrite N.mod_small; auto.
  - replace m with (32 + (m - 32)) by lia. rewrite seq_app, zsum_app, bits_mod by lia. rewrite N.mod_small by exact HC. rewrite (zsum_ext _ (fun _ => 0%Z)), zsum_zero; [lia|].
    intros i Hi. apply in_seq in Hi. rewrite (proj2 (Nat.ltb_ge i 32)) by lia. cbn [andb k01]. lia.
Qed.

(* -------------------------------------------------------------------- *)
(** * The lookup table *)
Section Complete.
  Variable L : nat.
  Notation F := (TF L).
  Notation tbl := (tbl L).

  Definition single (t : tbl) (fl : list tflush) : Prop := exists p, t_parts L t = [Some p] /\ p_lv L p = 0 /\ p_flushes L p = fl.
  Lemma single_column t level d fl h t' : (single t fl \/ t_parts L t = [] /\ fl = []) -> new_column L t level 0 d = (h, t') -> single t' fl /\ t_id L t' = t_id L t.
  Proof.
    intros H E. unfold new_column in E. injection E as <- <-. split; [|reflexivity]. destruct H as [(p & E1 & E2 & E3)|[E1 E2]].
    - eexists. cbn [t_parts with_part]. unfold part_or_new, part_of. rewrite E1. cbn [nth_error set_entry length app repeat Nat.sub upd]. split; [reflexivity|]. cbn. auto.
    - eexists. cbn [t_parts with_part]. unfold part_or_new, part_of. rewrite E1. cbn [nth_error set_entry length app repeat Nat.sub upd]. split; [reflexivity|]. cbn. auto.
  Qed.
  Lemma single_flush t fl f : single t fl -> single (add_flush L t 0 f) (fl ++ [f]).
  Proof.
    intros (p & E1 & E2 & E3). unfold add_flush. eexists. cbn [t_parts with_part]. unfold part_or_new, part_of. rewrite E1. cbn [nth_error set_entry length app repeat Nat.sub upd]. split; [reflexivity|]. cbn. split; [exact E2|]. now rewrite E3.
  Qed.
  Lemma single_bits n : forall t fl, single t fl -> let '(hs, t') := add_multiplicity_bits L t n in single t' fl /\ t_id L t' = t_id L t /\ length hs = n.
  Proof.
    induction n as [|n IH]; intros t fl H; cbn [add_multiplicity_bits]; [auto|]. destruct (add_committed L t 0 0) as [h t1] eqn:E. destruct (single_column t 0 _ fl h t1 (or_introl H) E) as [H1 I1].
    specialize (IH t1 fl H1). destruct (add_multiplicity_bits L t1 n) as [hs t2]. destruct IH as (S2 & I2 & L2). split; [exact S2|]. split; [congruence|cbn [length]; congruence].
  Qed.
  Definition producer_flush (chan : nat) (cols : list hcol) (ib : nat * hcol) : tflush := mkTf (map h_id cols) chan Push (multiplicity (fst ib)) [h_id (snd ib)].
  Lemma single_push chan cols bits : forall t i t' fl, single t fl -> push_bits L t chan cols i bits = Ok t' ->
    single t' (fl ++ map (producer_flush chan cols) (combine (seq i (length bits)) bits)) /\ t_id L t' = t_id L t.
  Proof.
    induction bits as [|h bits IH]; intros t i t' fl H; cbn [push_bits]; [intros E; apply ok_inj in E as <-; cbn; rewrite app_nil_r; auto|].
    destruct (flush_with_opts _ _ _ _ _ _ _) as [t1| |] eqn:E1; try discriminate. cbn [rbind]. apply flush_opts_later in E1. intros E.
    assert (S1 : single t1 (fl ++ [producer_flush chan cols (i, h)])) by (subst t1; apply single_flush; exact H). destruct (IH t1 (S i) t' _ S1 E) as [S2 I2].
    cbn [length seq combine map]. rewrite <- app_assoc in S2. cbn [app] in S2. split; [exact S2|]. rewrite I2. now subst t1.
  Qed.

  Lemma lookup_parts id n level c chan perm m g t : table_lookup_new L (table_new L id) n level c chan perm m = Ok (g, t) ->
    t_id L t = id /\ length (tl_bits g) = m /\ exists p, parts_list L t = [p] /\ p_lv L p = 0 /\
      p_flushes L p = mkTf [h_id (tl_ordered g)] perm Push 1 [] :: mkTf [h_id (tl_sorted g)] perm Pull 1 [] :: map (producer_flush chan [tl_sorted g]) (combine (seq 0 m) (tl_bits g)).
  Proof.
    unfold table_lookup_new, require_fixed_size, table_new. cbn [t_spec rbind t_id t_cols t_parts]. unfold add_fixed. cbn [t_spec]. destruct (n =? n_vars c); [|discriminate]. cbn [rbind]. set (t1 := mkTbl L id [] _ _).
    destruct (new_column L t1 level 0 (CdFixed L c)) as [o t2] eqn:EO. destruct (single_column t1 level _ [] o t2 (or_intror (conj eq_refl eq_refl)) EO) as [S2 I2].
    destruct (add_committed L t2 level 0) as [s t3] eqn:EC. destruct (single_column t2 level _ [] s t3 (or_introl S2) EC) as [S3 I3].
    destruct (flush_with_opts L t3 Push perm [o] 1 []) as [t4| |] eqn:E4; try discriminate. cbn [rbind]. apply flush_opts_later in E4. destruct (flush_with_opts L t4 Pull perm [s] 1 []) as [t5| |] eqn:E5; try discriminate. cbn [rbind]. apply flush_opts_later in E5.
    cbn [map] in E4, E5. assert (S5 : single t5 [mkTf [h_id o] perm Push 1 []; mkTf [h_id s] perm Pull 1 []]) by (subst t5; apply (single_flush t4 [mkTf [h_id o] perm Push 1 []]); subst t4; apply (single_flush t3 []); exact S3).
    assert (I5 : t_id L t5 = id) by (subst t5 t4; cbn [add_flush with_part t_id]; rewrite I3, I2; reflexivity).
    unfold lookup_producer_new. pose proof (single_bits m t5 _ S5) as SB. destruct (add_multiplicity_bits L t5 m) as [hs t6]. destruct SB as (S6 & I6 & L6). destruct (push_bits L t6 chan [s] 0 hs) as [t7| |] eqn:E7; try discriminate. cbn [rbind].
    intros E; apply ok_inj in E. injection E as <- <-. cbn [tl_ordered tl_sorted tl_bits]. destruct (single_push chan [s] hs t6 0 t7 _ S6 E7) as [(p & P1 & P2 & P3) I7]. split; [congruence|]. split; [exact L6|].
    exists p. unfold parts_list. rewrite P1. cbn [map concat app]. split; [reflexivity|]. split; [exact P2|]. rewrite P3, L6. reflexivity.
  Qed.

  (** ** What is sent *)
  Definition key (x y : list F) : bool := if key_dec F x y then true else false.
  Lemma sent_zsum d c x es : sent F d c x es = zsum (fun e => if dir_eqb (ev_dir F e) d && hits F c x e then Z.of_N (ev_mult F e) else 0%Z) es.
  Proof. induction es as [|e es IH]; [reflexivity|]. cbn [sent zsum fold_right]. now rewrite IH. Qed.
  Lemma sent_none d c x es : (forall e, In e es -> ev_channel F e = c -> ev_dir F e = d -> False) -> sent F d c x es = 0%Z.
  Proof.
    intros H. rewrite sent_zsum, (zsum_ext _ (fun _ => 0%Z)); [apply zsum_zero|]. intros e He. specialize (H e He). unfold hits. destruct (dir_eqb (ev_dir F e) d) eqn:ED; [|reflexivity]. destruct (Nat.eqb_spec (ev_channel F e) c) as [E|]; [|reflexivity].
    exfalso. apply H; [exact E|]. destruct (ev_dir F e), d; try discriminate ED; reflexivity.
  Qed.
  Lemma sent_flush sizes (w : cells L) t p f d c x : p_lv L p = 0 ->
    sent F d c x (flush_sends L sizes w t p f) = (k01 (dir_eqb (tf_dir f) d && (tf_channel f =? c)%nat) * Z.of_N (tf_mult f) *
      zsum (fun r => k01 (forallb (fun k => negb (feqb (w k r 0%nat) f0)) (tf_sels f) && key (map (fun k => w k r 0%nat) (tf_cols f)) x)) (seq 0 (size_of L sizes t)))%Z.
  Proof.
    intros E. unfold flush_sends. rewrite E. generalize (seq 0 (size_of L sizes t)). intros l. induction l as [|r l IH]; [cbn; lia|]. cbn [list_prod seq map app filter zsum fold_right]. fold (zsum (fun r => k01 (forallb (fun k => negb (feqb (w k r 0) f0)) (tf_sels f) && key (map (fun k => w k r 0) (tf_cols f)) x)) l).
    cbn [fst snd Nat.pow seq map app filter]. cbn [fst snd Nat.pow seq] in IH. destruct (forallb _ _); cbn [map sent ev_dir ev_mult ev_values fst snd]; rewrite ?IH.
    - unfold hits. cbn [ev_channel ev_values]. unfold key. destruct (dir_eqb _ _), (_ =? _); cbn [andb k01]; try lia. destruct (key_dec F _ x); cbn [k01]; lia.
    - cbn [andb k01]. lia.
  Qed.
  Lemma sent_pulls c x es : (forall e, In e (pulled L c es) -> ev_mult F e = 1%N) -> sent F Pull c x es = zsum (fun e => k01 (key (ev_values F e) x)) (pulled L c es).
  Proof.
    induction es as [|e es IH]; intros H; [reflexivity|]. cbn [sent]. unfold pulled in *. cbn [filter] in *. unfold hits. destruct (Nat.eqb_spec (ev_channel F e) c) as [E|E]; cbn [andb] in *.
    - destruct (ev_dir F e) eqn:ED; cbn [dir_eqb is_pull andb] in *; [now apply IH|]. cbn [zsum fold_right]. rewrite (H e) by now left. rewrite IH by (intros e' He; apply H; now right). unfold zsum, key. destruct (key_dec F (ev_values F e) x); cbn [k01]; lia.
    - rewrite andb_false_r. now apply IH.
  Qed.
  Lemma parts_app ts ts' : parts_of L (ts ++ ts') = parts_of L ts ++ parts_of L ts'.
  Proof. unfold CompileSpec.parts_of. now rewrite map_app, concat_app. Qed.

  (** ** The channels balance *)
  (** The entries of a table: every index has one entry, of one value. *)
  Definition entries_ok (il : indexed L) : Prop :=
    forall i, i < 2 ^ il_log_size L il -> length (il_index_to_entry L il i) = 1 /\ il_entry_to_index L il (il_index_to_entry L il i) = i.
  (** Only the lookup table [id] uses [perm] and pushes on [chan]; the others read from [chan], one tuple at a time. *)
  Definition only_reads (ts : list tbl) (bs : list (boundary F)) (id chan perm : nat) : Prop :=
    (forall t p f, In (t, p) (parts_of L ts) -> In f (p_flushes L p) -> t_id L t <> id ->
       tf_channel f <> perm /\ (tf_channel f = chan -> tf_dir f = Pull /\ tf_mult f = 1%N /\ tf_sels f = [])) /\
    (forall x, In x bs -> bd_channel F x <> perm /\ (bd_channel F x = chan -> bd_dir F x = Pull /\ bd_multiplicity F x = 1%N)).

  Theorem lookup_complete ts sizes bs (w : cells L) il id level c chan perm m g tl counts rows bits :
    let es := table_events L ts sizes bs w in
    let n := il_log_size L il in
    tables_ok L ts -> table_lookup_new L (table_new L id) n level c chan perm m = Ok (g, tl) -> nth_error ts id = Some tl -> nth id sizes 0 = 2 ^ n ->
    chan <> perm -> entries_ok il -> only_reads ts bs id chan perm ->
    (forall e, In e (pulled L chan es) -> exists i, i < 2 ^ n /\ ev_values F e = il_index_to_entry L il i) ->
    (N.of_nat (length (pulled L chan es)) < 2 ^ 32)%N ->
    tally L il w chan ts sizes bs = Ok counts -> Permutation rows (combine (seq 0 (2 ^ n)) counts) -> populate_bits m (map snd rows) = Ok bits ->
    (forall r, r < 2 ^ n -> w (h_id (tl_ordered g)) r 0 = fill_ordered L il r /\ w (h_id (tl_sorted g)) r 0 = fill_sorted L il rows r /\
       forall j h, nth_error (tl_bits g) j = Some h -> w (h_id h) r 0 = if bits j r then f1 else f0) ->
    balanced L chan es /\ balanced L perm es.
  Proof.
    intros es n OK EM Ht SZ CP EO [OF OB] PE PN TA PM PB FILL. destruct (lookup_parts _ _ _ _ _ _ _ _ _ EM) as (TI & LB & p & P1 & P2 & P3).
    destruct (nth_error_split ts id Ht) as (pre & post & ETS & LPRE).
    set (sends := fun tp : tbl * part L => flat_map (flush_sends L sizes w (fst tp) (snd tp)) (p_flushes L (snd tp))).
    set (E := flat_map (flush_sends L sizes w tl p) (p_flushes L p)).
    set (O1 := map (boundary_event F) bs ++ flat_map sends (parts_of L pre)). set (O2 := flat_map sends (parts_of L post)).
    assert (ES : es = O1 ++ E ++ O2).
    { unfold es, table_events. fold sends. rewrite ETS, parts_app. change (parts_of L (tl :: post)) with (map (pair tl) (parts_list L tl) ++ parts_of L post). rewrite P1. cbn [map app]. rewrite flat_map_app. cbn [flat_map]. unfold O1, O2. rewrite <- app_assoc. reflexivity. }
    assert (IDS : forall t q, In (t, q) (parts_of L pre) \/ In (t, q) (parts_of L post) -> In (t, q) (parts_of L ts) /\ t_id L t <> id).
    { assert (T : forall l t q, In (t, q) (parts_of L l) -> In t l).
      { intros l t q H. unfold CompileSpec.parts_of in H. apply in_concat in H as (x & Hx & H). apply in_map_iff in Hx as (t' & <- & Hx). apply in_map_iff in H as (q' & E' & _). injection E' as -> _. exact Hx. }
      intros t q H. split.
      - rewrite ETS, parts_app. change (parts_of L (tl :: post)) with (map (pair tl) (parts_list L tl) ++ parts_of L post). apply in_or_app. destruct H as [H|H]; [now left|right; apply in_or_app; now right].
      - destruct H as [H|H]; apply T in H; apply In_nth_error in H as [k Hk].
        + assert (KL : k < length pre) by (apply nth_error_Some; congruence). assert (Hk' : nth_error ts k = Some t) by (rewrite ETS, nth_error_app1 by exact KL; exact Hk). destruct (OK _ _ Hk') as [-> _]. lia.
        + assert (Hk' : nth_error ts (S (length pre + k)) = Some t). { rewrite ETS, nth_error_app2 by lia. replace (S (length pre + k) - length pre) with (S k) by lia. exact Hk. } destruct (OK _ _ Hk') as [-> _]. lia. }
    assert (OTHER : forall e, In e O1 \/ In e O2 -> ev_channel F e <> perm /\ (ev_channel F e = chan -> ev_dir F e = Pull /\ ev_mult F e = 1%N)).
    { assert (FL : forall e l, In e (flat_map sends l) -> (forall t q, In (t, q) l -> In (t, q) (parts_of L ts) /\ t_id L t <> id) -> ev_channel F e <> perm /\ (ev_channel F e = chan -> ev_dir F e = Pull /\ ev_mult F e = 1%N)).
      { intros e l H HH. apply in_flat_map in H as ([t q] & H1 & H). destruct (HH t q H1) as [I1 I2]. unfold sends in H. cbn [fst snd] in H. apply in_flat_map in H as (f & H2 & H). unfold flush_sends in H. apply in_map_iff in H as (rj & <- & _). cbn [ev_channel ev_dir ev_mult].
        destruct (OF t q f I1 H2 I2) as [A1 A2]. split; [exact A1|]. intros EC. destruct (A2 EC) as (B1 & B2 & _). auto. }
      intros e [H|H].
      - unfold O1 in H. apply in_app_or in H as [H|H]; [|apply (FL e _ H); intros t q Hq; apply IDS; now left]. apply in_map_iff in H as (x & <- & H). cbn [boundary_event ev_channel ev_dir ev_mult]. now apply OB.
      - apply (FL e _ H). intros t q Hq. apply IDS. now right. }
    assert (EFL : forall d k x, sent F d k x E = zsum (fun f => sent F d k x (flush_sends L sizes w tl p f)) (p_flushes L p)).
    { intros d k x. unfold E. rewrite sent_zsum, zsum_flat. apply zsum_ext. intros f _. now rewrite sent_zsum. }
    assert (SZ' : size_of L sizes tl = 2 ^ n) by (unfold size_of; now rewrite TI).
    set (S0 := seq 0 (2 ^ n)). assert (SI : forall r, In r S0 -> r < 2 ^ n) by (intros r Hr; apply in_seq in Hr; lia).
    assert (US : unselected L ts chan).
    { intros t q f Hq Hf EC ED. rewrite ETS, parts_app in Hq. change (parts_of L (tl :: post)) with (map (pair tl) (parts_list L tl) ++ parts_of L post) in Hq. rewrite P1 in Hq. apply in_app_or in Hq as [Hq|Hq]; [destruct (IDS t q (or_introl Hq)) as [I1 I2]; now apply (OF t q f I1 Hf I2)|].
      apply in_app_or in Hq as [Hq|Hq]; [|destruct (IDS t q (or_intror Hq)) as [I1 I2]; now apply (OF t q f I1 Hf I2)]. destruct Hq as [Hq|[]]. injection Hq as <- <-. rewrite P3 in Hf. destruct Hf as [<-|[<-|Hf]]; [reflexivity|reflexivity|].
      apply in_map_iff in Hf as (ib & <- & _). discriminate ED. }
    (* the counts *)
    destruct (tally_correct L il w chan sizes ts bs US) as (counts' & TA' & LC & NC).
    { intros e He. destruct (PE e He) as (i & Hi & ->). destruct (EO i Hi) as [_ ->]. exact Hi. }
    rewrite TA in TA'. apply ok_inj in TA' as <-. fold n es in NC, LC.
    assert (NCT : forall i, i < 2 ^ n -> Z.of_N (nth i counts 0%N) = zsum (fun e => k01 (il_entry_to_index L il (ev_values F e) =? i)%nat) (pulled L chan es)).
    { intros i Hi. rewrite NC by exact Hi. rewrite N.mod_small. 2: { assert (lookups L il chan i es <= length (pulled L chan es)) by (unfold lookups; apply filter_short). lia. } rewrite nat_N_Z. unfold lookups. apply zsum_filter. }
    assert (LR : length rows = 2 ^ n) by (rewrite (Permutation_length PM), combine_length, seq_length, LC; lia).
    assert (RV : forall r, r < 2 ^ n -> fst (nth r rows (0, 0%N)) < 2 ^ n /\ [w (h_id (tl_sorted g)) r 0] = il_index_to_entry L il (fst (nth r rows (0, 0%N)))).
    { intros r Hr. assert (IR : In (nth r rows (0, 0%N)) rows) by (apply nth_In; lia). apply (Permutation_in _ PM) in IR. destruct (nth r rows (0, 0%N)) as [i cnt] eqn:ER. apply in_combine_l in IR. apply SI in IR. cbn [fst]. split; [exact IR|].
      destruct (FILL r Hr) as (_ & FS & _). rewrite FS. unfold fill_sorted. rewrite (nth_error_nth' rows (0, 0%N)) by lia. rewrite ER. destruct (EO i IR) as [LE _]. destruct (il_index_to_entry L il i) as [|v [|]]; try discriminate LE. reflexivity. }
    assert (OV : forall r, r < 2 ^ n -> [w (h_id (tl_ordered g)) r 0] = il_index_to_entry L il r).
    { intros r Hr. destruct (FILL r Hr) as (FO & _). rewrite FO. unfold fill_ordered. destruct (EO r Hr) as [LE _]. destruct (il_index_to_entry L il r) as [|v [|]]; try discriminate LE. reflexivity. }
    assert (CB : combine S0 counts = map (fun i => (i, nth i counts 0%N)) S0) by (unfold S0; rewrite <- LC; apply combine_nth_seq).
    assert (ROWS : forall f : nat * N -> Z, zsum (fun r => f (nth r rows (0, 0%N))) S0 = zsum (fun i => f (i, nth i counts 0%N)) S0).
    { intros f. unfold S0 at 1. rewrite <- LR, zsum_nth, (zsum_perm _ _ _ PM). fold S0. now rewrite CB, zsum_map. }
    assert (PRODUCERS : forall d k x, sent F d k x E = (k01 (dir_eqb Push d && (perm =? k)%nat) * zsum (fun r => k01 (key [w (h_id (tl_ordered g)) r 0%nat] x)) S0 + k01 (dir_eqb Pull d && (perm =? k)%nat) * zsum (fun r => k01 (key [w (h_id (tl_sorted g)) r 0%nat] x)) S0 +
        k01 (dir_eqb Push d && (chan =? k)%nat) * zsum (fun ib => Z.of_N (multiplicity (fst ib)) * zsum (fun r => k01 (bits (fst ib) r && key [w (h_id (tl_sorted g)) r 0%nat] x)) S0)%Z (combine (seq 0 m) (tl_bits g)))%Z).
    { intros d k x. rewrite EFL, P3. cbn [zsum fold_right]. match goal with |- (_ + (_ + ?z))%Z = _ => change z with (zsum (fun f => sent F d k x (flush_sends L sizes w tl p f)) (map (producer_flush chan [tl_sorted g]) (combine (seq 0 m) (tl_bits g)))) end.
      rewrite !(sent_flush sizes w tl p) by exact P2. cbn [tf_dir tf_channel tf_mult tf_sels tf_cols forallb andb map]. rewrite SZ'. fold S0. rewrite zsum_map. rewrite (zsum_ext (fun a => sent F d k x _) (fun ib => (k01 (dir_eqb Push d && (chan =? k)%nat) * (Z.of_N (multiplicity (fst ib)) * zsum (fun r => k01 (bits (fst ib) r && key [w (h_id (tl_sorted g)) r 0%nat] x)) S0))%Z)).
      - rewrite zsum_scale. lia.
      - intros [j h] Hjh. rewrite (sent_flush sizes w tl p) by exact P2. unfold producer_flush. cbn [tf_dir tf_channel tf_mult tf_sels tf_cols map fst snd]. rewrite SZ'. fold S0. rewrite <- Z.mul_assoc. f_equal. f_equal. apply zsum_ext. intros r Hr. apply SI in Hr. f_equal. f_equal.
        destruct (FILL r Hr) as (_ & _ & FB). assert (Hj : nth_error (tl_bits g) j = Some h).
        { clear -Hjh LB. subst m. apply in_numbered in Hjh as [_ Hjh]. now rewrite Nat.sub_0_r in Hjh. }
        cbn [forallb]. rewrite (FB j h Hj), andb_true_r. destruct (bits j r); [|now rewrite feqb_refl]. destruct (feqb f1 f0) eqn:E0; [|reflexivity]. apply (f_eqb F) in E0. exfalso. now apply (f_10 F). }
    assert (ZE : forall d k x, k = perm \/ d = Push /\ k = chan -> sent F d k x es = sent F d k x E).
    { intros d k x H. rewrite ES, !sent_app. rewrite (sent_none d k x O1), (sent_none d k x O2); [lia|..]; intros e He EC ED; destruct (OTHER e) as [A1 A2]; auto; destruct H as [->|[-> ->]]; try congruence; destruct (A2 EC); congruence. }
    split; intros x.
    - rewrite (ZE Push chan x) by auto. rewrite PRODUCERS. cbn [dir_eqb andb]. rewrite Nat.eqb_refl. destruct (Nat.eqb_spec perm chan) as [EP|_]; [congruence|]. cbn [k01].
      rewrite sent_pulls. 2: { intros e He. unfold pulled in He. apply filter_In in He as [He H']. apply andb_prop in H' as [C1 C2]. apply Nat.eqb_eq in C1. apply is_pull_true in C2. rewrite ES in He. apply in_app_or in He as [He|He]; [now apply (OTHER e (or_introl He))|]. apply in_app_or in He as [He|He]; [|now apply (OTHER e (or_intror He))].
        exfalso. unfold E in He. rewrite P3 in He. apply in_flat_map in He as (f & Hf & He). unfold flush_sends in He. apply in_map_iff in He as (rj & <- & _). cbn [ev_channel ev_dir] in C1, C2. destruct Hf as [<-|[<-|Hf]]; [discriminate C2|cbn in C1; congruence|]. apply in_map_iff in Hf as (ib & <- & _). discriminate C2. }
      rewrite ?Z.mul_0_l, ?Z.add_0_l, ?Z.mul_1_l.
      transitivity (zsum (fun i => Z.of_N (multiplicity i) * zsum (fun r => k01 (bits i r && key [w (h_id (tl_sorted g)) r 0%nat] x)) S0)%Z (seq 0 m)).
      { rewrite <- (zsum_map (fun i => Z.of_N (multiplicity i) * zsum (fun r => k01 (bits i r && key [w (h_id (tl_sorted g)) r 0%nat] x)) S0)%Z fst). f_equal. clear -LB. subst m. generalize 0. induction (tl_bits g) as [|h l IH]; intros a; [reflexivity|]. cbn [length seq combine map fst]. f_equal. apply IH. }
      rewrite (zsum_ext _ (fun i => zsum (fun r => Z.of_N (multiplicity i) * k01 (bits i r && key [w (h_id (tl_sorted g)) r 0%nat] x))%Z S0)) by (intros i _; now rewrite zsum_scale). rewrite zsum_swap.
      transitivity (zsum (fun r => (fun row : nat * N => k01 (key (il_index_to_entry L il (fst row)) x) * Z.of_N (snd row))%Z (nth r rows (0%nat, 0%N))) S0).
      { apply zsum_ext. intros r Hr. apply SI in Hr. destruct (RV r Hr) as [R1 R2]. cbv beta. rewrite R2. unfold populate_bits in PB. destruct (_ && _) eqn:EB in PB; [discriminate|]. apply ok_inj in PB.
        set (cnt := snd (nth r rows (0%nat, 0%N))). assert (CN : nth r (map snd rows) 0%N = cnt) by (unfold cnt; change 0%N with (snd (0%nat, 0%N)) at 1; apply map_nth).
        rewrite (zsum_ext _ (fun i => k01 (key (il_index_to_entry L il (fst (nth r rows (0%nat, 0%N)))) x) * (Z.of_N (multiplicity i) * k01 ((i <? 32)%nat && N.testbit cnt (N.of_nat i))))%Z).
        2: { intros i _. rewrite <- PB, CN. destruct ((i <? 32)%nat && N.testbit cnt (N.of_nat i)), (key _ x); cbn [andb k01]; lia. }
        rewrite zsum_scale, bits_total; [reflexivity|..].
        - assert (IR : In (nth r rows (0%nat, 0%N)) rows) by (apply nth_In; lia). apply (Permutation_in _ PM) in IR. fold S0 in IR. rewrite CB in IR. apply in_map_iff in IR as (i & EI & Hi). unfold cnt. rewrite <- EI. cbn [snd]. apply SI in Hi. rewrite NC by exact Hi. apply N.mod_lt. discriminate.
        - intros Hm. rewrite (proj2 (Nat.ltb_lt _ _) Hm) in EB. cbn [andb] in EB. destruct (N.lt_ge_cases cnt (2 ^ N.of_nat m)) as [|GE]; [assumption|]. exfalso.
          assert (EX : existsb (fun c0 => N.leb (N.shiftl 1 (N.of_nat m)) c0) (map snd rows) = true); [|congruence]. apply existsb_exists. exists cnt. split; [unfold cnt; apply in_map, nth_In; lia|]. rewrite N.shiftl_1_l. now apply N.leb_le. }
      etransitivity; [exact (ROWS (fun row : nat * N => k01 (key (il_index_to_entry L il (fst row)) x) * Z.of_N (snd row))%Z)|]. cbn [fst snd].
      rewrite (zsum_ext _ (fun i => zsum (fun e => k01 (key (il_index_to_entry L il i) x) * k01 (il_entry_to_index L il (ev_values F e) =? i)%nat)%Z (pulled L chan es))) by (intros i Hi; apply SI in Hi; rewrite zsum_scale, NCT by exact Hi; reflexivity).
      rewrite zsum_swap. apply zsum_ext. intros e He. destruct (PE e He) as (i & Hi & EV). unfold S0. rewrite zsum_pick. rewrite EV. destruct (EO i Hi) as [_ ->]. cbn [Nat.leb andb Nat.add]. rewrite (proj2 (Nat.ltb_lt _ _) Hi). reflexivity.
    - rewrite (ZE Push perm x), (ZE Pull perm x) by auto. rewrite !PRODUCERS. cbn [dir_eqb andb]. rewrite Nat.eqb_refl. destruct (Nat.eqb_spec chan perm) as [EP|_]; [congruence|]. cbn [k01]. rewrite ?Z.mul_0_l, ?Z.mul_1_l, ?Z.add_0_r, ?Z.add_0_l.
      rewrite (zsum_ext (fun r => k01 (key [w (h_id (tl_ordered g)) r 0%nat] x)) (fun r => k01 (key (il_index_to_entry L il r) x))) by (intros r Hr; rewrite OV by (now apply SI); reflexivity).
      rewrite (zsum_ext (fun r => k01 (key [w (h_id (tl_sorted g)) r 0%nat] x)) (fun r => (fun row : nat * N => k01 (key (il_index_to_entry L il (fst row)) x)) (nth r rows (0%nat, 0%N)))) by (intros r Hr; apply SI in Hr; destruct (RV r Hr) as [_ ->]; reflexivity).
      symmetry. exact (ROWS (fun row : nat * N => k01 (key (il_index_to_entry L il (fst row)) x))).
  Qed.
End Complete.
