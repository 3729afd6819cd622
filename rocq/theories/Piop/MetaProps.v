(** C53: layout of committed batches and grouping of claims in the polynomial IOP compiler. *)
Require Import Coq.NArith.NArith Coq.Arith.Arith Coq.Lists.List Coq.Bool.Bool Lia.
From Verif Require Import Base.Fld Base.Lists Base.Sums Base.NatBits Field.Examples Piop.MetaModel.
Import ListNotations.
Local Close Scope N_scope.
Local Open Scope nat_scope.

(** The number of multilinears with fewer than [v] variables, and the number of scalars of the batch. *)
Definition below (counts : list nat) (v : nat) : nat := list_sum (firstn v counts).
Definition batch_elems (counts : list nat) : nat := list_sum (map (fun v => nth v counts 0 * 2 ^ v) (seq 0 (length counts))).

Lemma combine_snoc {A B} (l : list A) (l' : list B) a b : length l = length l' -> combine (l ++ [a]) (l' ++ [b]) = combine l l' ++ [(a, b)].
Proof. revert l'. induction l as [|x l IH]; intros [|y l'] H; cbn in *; try discriminate; [reflexivity|]. f_equal. apply IH. lia. Qed.

Lemma meta_fold_spec counts : meta_fold counts = (map (below counts) (seq 0 (length counts)), list_sum counts, batch_elems counts).
Proof.
  induction counts as [|x l IH] using rev_ind; [reflexivity|]. unfold meta_fold, batch_elems in *. rewrite app_length, Nat.add_1_r, seq_S, combine_snoc by (now rewrite seq_length).
  rewrite fold_left_app, IH. cbn [fold_left]. rewrite !map_app, !list_sum_app. cbn [map].
  assert (E1 : map (below (l ++ [x])) (seq 0 (length l)) = map (below l) (seq 0 (length l))).
  { apply map_ext_in. intros v Hv. apply in_seq in Hv. unfold below. rewrite firstn_app. replace (v - length l) with 0 by lia. now rewrite firstn_O, app_nil_r. }
  assert (E2 : below (l ++ [x]) (0 + length l) = list_sum l) by (unfold below; now rewrite Nat.add_0_l, firstn_app, Nat.sub_diag, firstn_all, firstn_O, app_nil_r).
  assert (E3 : map (fun v => nth v (l ++ [x]) 0 * 2 ^ v) (seq 0 (length l)) = map (fun v => nth v l 0 * 2 ^ v) (seq 0 (length l))).
  { apply map_ext_in. intros v Hv. apply in_seq in Hv. now rewrite app_nth1 by lia. }
  rewrite E1, E2, E3. rewrite Nat.add_0_l, app_nth2, Nat.sub_diag by lia. cbn [nth]. unfold list_sum. cbn [fold_right]. now rewrite !Nat.add_0_r.
Qed.

Lemma below_S counts v : below counts (S v) = below counts v + nth v counts 0.
Proof.
  unfold below. revert v. induction counts as [|x l IH]; intros v; [destruct v; reflexivity|]. rewrite firstn_cons.
  destruct v as [|v]; [cbn; lia|]. rewrite firstn_cons. cbn [nth].
  change (list_sum (x :: firstn (S v) l)) with (x + list_sum (firstn (S v) l)). change (list_sum (x :: firstn v l)) with (x + list_sum (firstn v l)).
  rewrite IH. lia.
Qed.
Lemma below_mono counts u v : u <= v -> below counts u <= below counts v.
Proof. induction 1; auto. rewrite below_S. lia. Qed.
Lemma below_all counts v : length counts <= v -> below counts v = list_sum counts.
Proof. intros H. unfold below. now rewrite firstn_all2. Qed.
Lemma below_find counts k : k < list_sum counts -> exists v, v < length counts /\ below counts v <= k < below counts (S v).
Proof.
  intros H. assert (G : forall n, k < below counts n -> exists v, v < n /\ below counts v <= k < below counts (S v)).
  { induction n as [|n IH]; intros Hn; [unfold below in Hn; cbn in Hn; lia|].
    destruct (Nat.le_gt_cases (below counts n) k) as [L|L]; [exists n; lia|]. destruct (IH L) as (v & ? & ?). exists v. lia. }
  destruct (G (length counts)) as (v & ? & ?); [now rewrite below_all|]. exists v. auto.
Qed.

Lemma range_ok counts v : v < length counts -> range_by_vars (meta_new counts) v = Ok (below counts v, below counts (S v)).
Proof.
  intros H. unfold range_by_vars, meta_new. rewrite meta_fold_spec. cbn [offsets_by_vars n_multilins_by_vars].
  rewrite nth_error_map, nth_error_seq. destruct (Nat.ltb_spec v (length counts)); [|lia]. cbn [option_map of_opt rbind].
  rewrite (nth_error_nth_eq counts v 0) by auto. cbn [of_opt rbind]. rewrite below_S. reflexivity.
Qed.
Lemma range_panics counts v : length counts <= v -> range_by_vars (meta_new counts) v = Panic.
Proof.
  intros H. unfold range_by_vars, meta_new. rewrite meta_fold_spec. cbn [offsets_by_vars n_multilins_by_vars].
  rewrite nth_error_map, nth_error_seq. destruct (Nat.ltb_spec v (length counts)); [lia|]. reflexivity.
Qed.

(** The ranges of indices by number of variables are consecutive, every index of the batch lies in exactly one, and the
    interpolating multilinear is the smallest that has room for all scalars. *)
Theorem commit_meta_correct counts :
  let m := meta_new counts in
  (forall v, v < length counts -> exists lo hi, range_by_vars m v = Ok (lo, hi) /\ hi = lo + nth v counts 0 /\
     match v with 0 => lo = 0 | S u => exists lo', range_by_vars m u = Ok (lo', lo) end) /\
  (forall k, k < total_multilins m <-> exists v lo hi, range_by_vars m v = Ok (lo, hi) /\ lo <= k < hi) /\
  (forall k v v' lo hi lo' hi', range_by_vars m v = Ok (lo, hi) -> range_by_vars m v' = Ok (lo', hi') -> lo <= k < hi -> lo' <= k < hi' -> v = v') /\
  total_multilins m = list_sum counts /\
  batch_elems counts <= 2 ^ total_vars m /\ (forall n, batch_elems counts <= 2 ^ n -> total_vars m <= n).
Proof.
  intros m.
  assert (IN : forall v lo hi, range_by_vars m v = Ok (lo, hi) -> v < length counts /\ lo = below counts v /\ hi = below counts (S v)).
  { intros v lo hi E. destruct (Nat.lt_ge_cases v (length counts)) as [H|H]; [|unfold m in E; rewrite range_panics in E by auto; discriminate].
    unfold m in E. rewrite range_ok in E by auto. injection E as <- <-. auto. }
  assert (TM : total_multilins m = list_sum counts) by (unfold m, meta_new; now rewrite meta_fold_spec).
  split; [|split; [|split; [|split; [exact TM|]]]].
  - intros v Hv. exists (below counts v), (below counts (S v)). split; [now apply range_ok|]. split; [apply below_S|]. destruct v as [|u]; [reflexivity|].
    exists (below counts u). now apply range_ok; lia.
  - intros k. rewrite TM. split.
    + intros Hk. destruct (below_find counts k Hk) as (v & Hv & B). exists v, (below counts v), (below counts (S v)). split; auto. now apply range_ok.
    + intros (v & lo & hi & E & B). apply IN in E as (Hv & -> & ->). pose proof (below_mono counts (S v) (length counts) ltac:(lia)).
      rewrite (below_all counts (length counts)) in H by auto. lia.
  - intros k v v' lo hi lo' hi' E E' B B'. apply IN in E as (_ & -> & ->). apply IN in E' as (_ & -> & ->).
    destruct (Nat.lt_trichotomy v v') as [L|[->|L]]; auto; [pose proof (below_mono counts (S v) v' L)|pose proof (below_mono counts (S v') v L)]; lia.
  - assert (TV : total_vars m = Nat.log2 (next_power_of_two (batch_elems counts))) by (unfold m, meta_new; now rewrite meta_fold_spec).
    rewrite TV. unfold next_power_of_two. destruct (Nat.leb_spec (batch_elems counts) 1) as [L|L].
    + change (Nat.log2 1) with 0. split; [cbn; lia|intros; lia].
    + rewrite Nat.log2_pow2 by lia. split; [apply Nat.log2_up_spec; lia|]. intros n Hn. apply Nat.log2_up_le_pow2; lia.
Qed.

(** *** with_vars *)
Lemma bump_length entries v : length (bump entries v) = Nat.max (length entries) (S v).
Proof. unfold bump. rewrite upd_length, app_length, repeat_length. lia. Qed.
Lemma bump_nth entries v u : nth u (bump entries v) 0 = nth u entries 0 + (if u =? v then 1 else 0).
Proof.
  unfold bump. rewrite upd_nth.
  assert (E : nth u (entries ++ repeat 0 (S v - length entries)) 0 = nth u entries 0).
  { destruct (Nat.lt_ge_cases u (length entries)); [now rewrite app_nth1|]. rewrite app_nth2, (nth_overflow entries) by lia.
    destruct (Nat.lt_ge_cases (u - length entries) (S v - length entries)); [now rewrite nth_repeat0|]. apply nth_overflow. now rewrite repeat_length. }
  rewrite app_length, repeat_length. destruct (Nat.eqb_spec u v) as [->|N]; cbn [andb]; [|lia].
  destruct (Nat.ltb_spec v (length entries + (S v - length entries))); [|lia]. rewrite E. lia.
Qed.
Lemma bumps_nth vs : forall entries u, nth u (fold_left bump vs entries) 0 = nth u entries 0 + count_occ Nat.eq_dec vs u.
Proof.
  induction vs as [|v vs IH]; intros entries u; cbn [fold_left count_occ]; [lia|]. rewrite IH, bump_nth.
  destruct (Nat.eqb_spec u v), (Nat.eq_dec v u); lia.
Qed.
Lemma bumps_length vs : forall entries, length (fold_left bump vs entries) = fold_left Nat.max (map S vs) (length entries).
Proof. induction vs as [|v vs IH]; intros entries; cbn [fold_left map]; [reflexivity|]. now rewrite IH, bump_length. Qed.
Lemma list_sum_upd_S l i : i < length l -> list_sum (upd l i (S (nth i l 0))) = S (list_sum l).
Proof.
  revert i. induction l as [|x l IH]; intros [|i] H; cbn [length] in H; try lia; cbn [upd nth]; unfold list_sum in *; cbn [fold_right]; [lia|].
  rewrite IH by lia. lia.
Qed.
Lemma list_sum_repeat0 n : list_sum (repeat 0 n) = 0. Proof. induction n; auto. Qed.
Lemma bump_sum entries v : list_sum (bump entries v) = S (list_sum entries).
Proof. unfold bump. rewrite list_sum_upd_S by (rewrite app_length, repeat_length; lia). now rewrite list_sum_app, list_sum_repeat0, Nat.add_0_r. Qed.
Lemma bumps_sum vs : forall entries, list_sum (fold_left bump vs entries) = list_sum entries + length vs.
Proof. induction vs as [|v vs IH]; intros; cbn [fold_left length]; [lia|]. rewrite IH, bump_sum. lia. Qed.

Theorem with_vars_correct vs :
  let m := with_vars vs in
  (forall v, nth v (n_multilins_by_vars m) 0 = count_occ Nat.eq_dec vs v) /\ max_n_vars m = fold_left Nat.max vs 0 /\ total_multilins m = length vs.
Proof.
  intros m. unfold m, with_vars. destruct (commit_meta_correct (fold_left bump vs [])) as (_ & _ & _ & T & _). rewrite T, bumps_sum.
  unfold max_n_vars, meta_new. rewrite meta_fold_spec. cbn [n_multilins_by_vars]. split; [intros v; rewrite bumps_nth; destruct v; reflexivity|]. split; [|reflexivity].
  rewrite bumps_length. cbn [length]. assert (G : forall l a, fold_left Nat.max (map S l) (S a) = S (fold_left Nat.max l a)).
  { induction l as [|x l IH]; intros a; cbn [map fold_left]; [reflexivity|]. rewrite <- IH. reflexivity. }
  destruct vs as [|v vs]; [reflexivity|]. cbn [map fold_left]. rewrite !Nat.max_0_l, G. lia.
Qed.

(** *** make_oracle_commit_meta *)
(** The committed oracles' numbers of packed variables, in order. *)
Fixpoint committed (oracles : list (option nat)) : list nat :=
  match oracles with [] => [] | None :: r => committed r | Some v :: r => v :: committed r end.

Lemma first_pass_spec oracles : forall counts,
  snd (first_pass oracles counts) = fold_left bump (committed oracles) counts /\
  length (fst (first_pass oracles counts)) = length oracles /\
  forall i o, nth_error oracles i = Some o ->
    nth_error (fst (first_pass oracles counts)) i =
      Some (match o with None => None | Some v => Some (v, nth v counts 0 + count_occ Nat.eq_dec (committed (firstn i oracles)) v) end).
Proof.
  induction oracles as [|[v|] rest IH]; intros counts; cbn [first_pass committed fold_left]; [repeat split; intros [|]; discriminate| |].
  - destruct (IH (bump counts v)) as (H1 & H2 & H3). destruct (first_pass rest (bump counts v)) as [index counts'] eqn:E. cbn [fst snd] in *.
    split; [exact H1|]. split; [cbn; lia|]. intros [|i] o Eo; cbn [nth_error firstn committed] in *.
    + injection Eo as <-. cbn [count_occ]. now rewrite Nat.add_0_r.
    + rewrite (H3 i o Eo). destruct o as [u|]; [|reflexivity]. do 3 f_equal. rewrite bump_nth. cbn [count_occ].
      destruct (Nat.eqb_spec u v), (Nat.eq_dec v u); lia.
  - destruct (IH counts) as (H1 & H2 & H3). destruct (first_pass rest counts) as [index counts'] eqn:E. cbn [fst snd] in *.
    split; [exact H1|]. split; [cbn; lia|]. intros [|i] o Eo; cbn [nth_error firstn committed] in *; [now injection Eo as <-|]. now apply H3.
Qed.

Lemma map_r_ok {A B} (f : A -> res B) (g : A -> B) l : (forall x, In x l -> f x = Ok (g x)) -> map_r f l = Ok (map g l).
Proof.
  induction l as [|x l IH]; intros H; [reflexivity|]. cbn [map_r map]. rewrite H by now left. cbn [rbind]. rewrite IH by (intros; apply H; now right). reflexivity.
Qed.

Lemma committed_app a b : committed (a ++ b) = committed a ++ committed b.
Proof. induction a as [|[v|] a IH]; cbn; [reflexivity| |]; now rewrite IH. Qed.
Lemma committed_in oracles i v : nth_error oracles i = Some (Some v) -> In v (committed oracles).
Proof. revert oracles. induction i as [|i IH]; intros [|[u|] r] E; cbn in *; try discriminate; [injection E as <-; now left|right; auto|auto]. Qed.
Lemma committed_split oracles i v : nth_error oracles i = Some (Some v) ->
  count_occ Nat.eq_dec (committed (firstn i oracles)) v < count_occ Nat.eq_dec (committed oracles) v /\
  forall j, i < j -> count_occ Nat.eq_dec (committed (firstn i oracles)) v < count_occ Nat.eq_dec (committed (firstn j oracles)) v.
Proof.
  revert oracles. induction i as [|i IH]; intros [|o r] E; cbn [nth_error] in E; try discriminate.
  - injection E as ->. cbn [firstn committed count_occ]. split; [destruct (Nat.eq_dec v v); [lia|congruence]|]. intros [|j] Hj; [lia|]. cbn [firstn committed count_occ].
    destruct (Nat.eq_dec v v); [lia|congruence].
  - destruct (IH r E) as [H1 H2]. split; [|intros [|j] Hj; [lia|]; specialize (H2 j ltac:(lia))]; cbn [firstn]; destruct o as [u|]; cbn [committed count_occ];
      try destruct (Nat.eq_dec u v); lia.
Qed.

Definition oracle_counts (oracles : list (option nat)) : list nat := fold_left bump (committed oracles) [].
Lemma oracle_counts_nth oracles v : nth v (oracle_counts oracles) 0 = count_occ Nat.eq_dec (committed oracles) v.
Proof. unfold oracle_counts. rewrite bumps_nth. now destruct v. Qed.
Lemma oracle_counts_len oracles i v : nth_error oracles i = Some (Some v) -> v < length (oracle_counts oracles).
Proof.
  intros E. destruct (Nat.lt_ge_cases v (length (oracle_counts oracles))) as [|H]; auto. exfalso.
  pose proof (oracle_counts_nth oracles v) as C. rewrite nth_overflow in C by auto. destruct (committed_split _ _ _ E) as [H1 _]. lia.
Qed.

Lemma make_meta_ok oracles :
  exists index, make_oracle_commit_meta oracles = Ok (meta_new (oracle_counts oracles), index) /\ length index = length oracles /\
    forall i o, nth_error oracles i = Some o ->
      nth_error index i = Some (match o with None => None | Some v => Some (below (oracle_counts oracles) v + count_occ Nat.eq_dec (committed (firstn i oracles)) v) end).
Proof.
  unfold make_oracle_commit_meta. destruct (first_pass_spec oracles []) as (H1 & H2 & H3). destruct (first_pass oracles []) as [first counts]. cbn [fst snd] in *.
  fold (oracle_counts oracles) in H1. subst counts.
  rewrite map_r_ok with (g := fun e => match e with None => None | Some (v, idx) => Some (below (oracle_counts oracles) v + idx) end).
  - cbn [rbind]. eexists. split; [reflexivity|]. split; [now rewrite map_length|]. intros i o E. rewrite nth_error_map, (H3 i o E). cbn [option_map].
    destruct o as [v|]; [|reflexivity]. do 3 f_equal. now destruct v.
  - intros e He. apply In_nth_error in He as [i Ei]. assert (Hi : i < length oracles) by (rewrite <- H2; eapply nth_error_lt; eauto).
    destruct (nth_error_ex oracles i Hi) as [o Eo]. rewrite (H3 i o Eo) in Ei. injection Ei as <-. destruct o as [v|]; cbn [second_pass_one]; [|reflexivity].
    rewrite range_ok by (eapply oracle_counts_len; eauto). reflexivity.
Qed.

(** The committed oracles are numbered bijectively, an oracle's index lies in the range of its number of variables, and
    oracles with as many variables keep their order; other oracles get no index. *)
Theorem oracle_commit_meta_correct oracles :
  exists m index, make_oracle_commit_meta oracles = Ok (m, index) /\ length index = length oracles /\ total_multilins m = length (committed oracles) /\
    (forall i, nth_error oracles i = Some None -> nth_error index i = Some None) /\
    (forall i v, nth_error oracles i = Some (Some v) -> exists k lo hi, nth_error index i = Some (Some k) /\ range_by_vars m v = Ok (lo, hi) /\ lo <= k < hi) /\
    (forall i j k, nth_error index i = Some (Some k) -> nth_error index j = Some (Some k) -> i = j) /\
    (forall k, k < total_multilins m -> exists i, nth_error index i = Some (Some k)) /\
    (forall i j v k l, i < j -> nth_error oracles i = Some (Some v) -> nth_error oracles j = Some (Some v) ->
       nth_error index i = Some (Some k) -> nth_error index j = Some (Some l) -> k < l).
Proof.
  destruct (make_meta_ok oracles) as (index & E & LI & HI). exists (meta_new (oracle_counts oracles)), index. split; [exact E|]. split; [exact LI|].
  set (C := oracle_counts oracles) in *.
  destruct (commit_meta_correct C) as (_ & _ & _ & TM & _).
  assert (LC : list_sum C = length (committed oracles)) by (unfold C, oracle_counts; now rewrite bumps_sum).
  assert (POS : forall i v, nth_error oracles i = Some (Some v) -> below C v + count_occ Nat.eq_dec (committed (firstn i oracles)) v < below C (S v)).
  { intros i v Ei. rewrite below_S. unfold C at 3. rewrite oracle_counts_nth. destruct (committed_split _ _ _ Ei) as [H _]. lia. }
  assert (INV : forall i k, nth_error index i = Some (Some k) -> exists v, nth_error oracles i = Some (Some v) /\ k = below C v + count_occ Nat.eq_dec (committed (firstn i oracles)) v).
  { intros i k Ei. assert (Hi : i < length oracles) by (rewrite <- LI; eapply nth_error_lt; eauto). destruct (nth_error_ex oracles i Hi) as [o Eo].
    rewrite (HI i o Eo) in Ei. destruct o as [v|]; [|discriminate]. injection Ei as <-. eauto. }
  split; [congruence|]. split; [intros i Ei; now rewrite (HI i _ Ei)|].
  split; [|split; [|split]].
  - intros i v Ei. exists (below C v + count_occ Nat.eq_dec (committed (firstn i oracles)) v), (below C v), (below C (S v)).
    split; [now rewrite (HI i _ Ei)|]. split; [apply range_ok; eapply oracle_counts_len; eauto|]. specialize (POS i v Ei). lia.
  - intros i j k Ei Ej. apply INV in Ei as (v & Ov & Ek). apply INV in Ej as (v' & Ov' & Ek'). pose proof (POS _ _ Ov). pose proof (POS _ _ Ov').
    assert (v = v') by (destruct (Nat.lt_trichotomy v v') as [L|[->|L]]; auto; [pose proof (below_mono C (S v) v' L)|pose proof (below_mono C (S v') v L)]; lia).
    subst v'. destruct (Nat.lt_trichotomy i j) as [L|[->|L]]; auto; exfalso.
    + destruct (committed_split _ _ _ Ov) as [_ H2]. specialize (H2 j L). lia.
    + destruct (committed_split _ _ _ Ov') as [_ H2]. specialize (H2 i L). lia.
  - intros k Hk. rewrite TM in Hk. destruct (below_find C k Hk) as (v & Hv & B).
    rewrite below_S in B. unfold C at 3 in B. rewrite oracle_counts_nth in B. set (x := k - below C v).
    assert (G : forall os x, x < count_occ Nat.eq_dec (committed os) v -> exists i, nth_error os i = Some (Some v) /\ count_occ Nat.eq_dec (committed (firstn i os)) v = x).
    { clear. induction os as [|[u|] os IH]; intros x Hx; cbn [committed count_occ] in Hx; [lia| |].
      - destruct (Nat.eq_dec u v) as [->|N].
        + destruct x as [|x]; [exists 0; split; reflexivity|]. destruct (IH x ltac:(lia)) as (i & Ei & Ex). exists (S i). split; [exact Ei|].
          cbn [firstn committed count_occ]. destruct (Nat.eq_dec v v); [lia|congruence].
        + destruct (IH x Hx) as (i & Ei & Ex). exists (S i). split; [exact Ei|]. cbn [firstn committed count_occ]. destruct (Nat.eq_dec u v); [congruence|auto].
      - destruct (IH x Hx) as (i & Ei & Ex). exists (S i). split; auto. }
    destruct (G oracles x ltac:(unfold x; lia)) as (i & Ei & Ex). exists i. rewrite (HI i _ Ei). do 2 f_equal. unfold x in Ex. lia.
  - intros i j v k l L Oi Oj Ei Ej. rewrite (HI i _ Oi) in Ei. rewrite (HI j _ Oj) in Ej. injection Ei as <-. injection Ej as <-.
    destruct (committed_split _ _ _ Oi) as [_ H2]. specialize (H2 j L). lia.
Qed.

(** Witnesses are collected in the order of the numbering. *)
Theorem collect_committed_witnesses_correct {W} oracles m index (w : nat -> W) : make_oracle_commit_meta oracles = Ok (m, index) ->
  exists ws, collect_committed_witnesses m index (fun id => Ok (w id)) = Ok ws /\ length ws = total_multilins m /\
    forall i k, nth_error index i = Some (Some k) -> nth_error ws k = Some (w i).
Proof.
  intros E. destruct (oracle_commit_meta_correct oracles) as (m' & index' & E' & LI & TM & _ & IN & INJ & SUR & _). rewrite E in E'. injection E' as <- <-.
  assert (BND : forall i k, nth_error index i = Some (Some k) -> k < total_multilins m).
  { intros i k Ei. assert (Hi : i < length oracles) by (rewrite <- LI; eapply nth_error_lt; eauto). destruct (nth_error_ex oracles i Hi) as [[v|] Eo].
    - destruct (IN i v Eo) as (k' & lo & hi & Ek & ER & B). rewrite Ei in Ek. injection Ek as <-.
      destruct (make_meta_ok oracles) as (ix & EM & _). rewrite E in EM. injection EM as -> _.
      destruct (commit_meta_correct (oracle_counts oracles)) as (_ & H & _). apply H. eauto.
    - destruct (oracle_commit_meta_correct oracles) as (m' & index' & E' & _ & _ & NN & _). rewrite E in E'. injection E' as <- <-.
      rewrite (NN i Eo) in Ei. discriminate. }
  unfold collect_committed_witnesses.
  assert (G : forall n, n <= length index -> exists slots, fold_left (fun acc id => try slots <- acc;
      match nth id index None with
      | None => Ok slots
      | Some k => try w <- Ok (w id); if k <? length slots then Ok (upd slots k (Some w)) else Panic
      end) (seq 0 n) (Ok (repeat None (total_multilins m))) = Ok slots /\ length slots = total_multilins m /\
      forall i k, i < n -> nth_error index i = Some (Some k) -> nth_error slots k = Some (Some (w i))).
  { induction n as [|n IH]; intros Hn; [exists (repeat None (total_multilins m)); split; [reflexivity|]; split; [apply repeat_length|lia]|].
    destruct (IH ltac:(lia)) as (slots & ES & LS & HS). rewrite seq_S, fold_left_app, ES. cbn [fold_left rbind]. rewrite Nat.add_0_l.
    destruct (nth_error_ex index n ltac:(lia)) as [o Eo]. rewrite (nth_error_nth _ _ _ Eo). destruct o as [k|].
    - rewrite LS. pose proof (BND n k Eo). destruct (Nat.ltb_spec k (total_multilins m)); [|lia]. exists (upd slots k (Some (w n))). split; [reflexivity|].
      split; [now rewrite upd_length|]. intros i k' Hi Ei. destruct (Nat.eq_dec i n) as [->|N].
      + rewrite Eo in Ei. injection Ei as <-. apply nth_error_upd_eq. lia.
      + rewrite nth_error_upd_ne; [apply HS; [lia|auto]|]. intros ->. apply N. eapply INJ; eauto.
    - exists slots. split; [reflexivity|]. split; [auto|]. intros i k Hi Ei. destruct (Nat.eq_dec i n) as [->|N]; [congruence|]. apply HS; [lia|auto]. }
  destruct (G (length index) (Nat.le_refl _)) as (slots & ES & LS & HS). rewrite ES. cbn [rbind].
  rewrite map_r_ok with (g := fun o => match o with Some x => x | None => w 0 end).
  - eexists. split; [reflexivity|]. split; [now rewrite map_length|]. intros i k Ei. rewrite nth_error_map, (HS i k); auto. eapply nth_error_lt; eauto.
  - intros o Ho. apply In_nth_error in Ho as [k Ek]. destruct (SUR k) as [i Ei]; [rewrite <- LS; eapply nth_error_lt; eauto|].
    rewrite (HS i k) in Ek; [|eapply nth_error_lt; eauto|auto]. injection Ek as <-. reflexivity.
Qed.

Section Descs.
  Variable F : field.
  Notation desc := (claim_desc F).
  Notation pclaim := (piop_claim F).
  Notation c_lo := (c_lo F). Notation c_hi := (c_hi F). Notation t_lo := (t_lo F). Notation t_hi := (t_hi F). Notation sums := (sums F).

  Lemma set_committed_spec counts : forall last (ds : list desc), length counts <= length ds ->
    length (set_committed F counts last ds) = length ds /\
    forall v d, nth_error ds v = Some d -> exists d', nth_error (set_committed F counts last ds) v = Some d' /\
      t_lo d' = t_lo d /\ t_hi d' = t_hi d /\ sums d' = sums d /\
      (v < length counts -> c_lo d' = last + below counts v /\ c_hi d' = last + below counts (S v)) /\
      (length counts <= v -> c_lo d' = c_lo d /\ c_hi d' = c_hi d).
  Proof.
    induction counts as [|n counts IH]; intros last ds H; cbn [set_committed].
    - split; [reflexivity|]. intros v d E. exists d. repeat split; auto; cbn in *; lia.
    - destruct ds as [|d0 ds]; [cbn in H; lia|]. cbn [length] in H. destruct (IH (last + n) ds ltac:(lia)) as [L G]. split; [cbn; lia|].
      intros [|v] d E; cbn [nth_error] in *.
      + injection E as <-. eexists. split; [reflexivity|]. cbn. repeat split; try lia; unfold below; cbn; lia.
      + destruct (G v d E) as (d' & E' & A1 & A2 & A3 & A4 & A5). exists d'. cbn [length]. repeat split; auto; intros; try (apply A5; lia).
        * destruct A4 as [-> _]; [lia|]. unfold below. rewrite firstn_cons. change (list_sum (n :: ?l)) with (n + list_sum l). lia.
        * destruct A4 as [_ ->]; [lia|]. unfold below. rewrite (firstn_cons (S v)). change (list_sum (n :: ?l)) with (n + list_sum l). lia.
  Qed.

  (** The state of the transparent loop: ranges hold exactly the positions with that number of variables. *)
  Definition t_inv (base : list desc) (ts : list nat) (current : nat) (ds : list desc) : Prop :=
    length ds = length base /\ current < length base /\ Forall (fun t => t <= current) ts /\
    (forall d, nth_error ds current = Some d -> t_hi d = length ts) /\
    forall v b, nth_error base v = Some b -> exists d, nth_error ds v = Some d /\
      c_lo d = c_lo b /\ c_hi d = c_hi b /\ sums d = sums b /\ t_lo d <= t_hi d /\
      t_hi d - t_lo d = count_occ Nat.eq_dec ts v /\
      (forall i, t_lo d <= i < t_hi d <-> nth_error ts i = Some v) /\ (current < v -> t_lo d = 0 /\ t_hi d = 0).

  Lemma nth_error_snoc {A} (l : list A) x i : nth_error (l ++ [x]) i = if i =? length l then Some x else nth_error l i.
  Proof.
    destruct (Nat.eqb_spec i (length l)) as [->|N]; [now rewrite nth_error_app2, Nat.sub_diag|].
    destruct (Nat.lt_ge_cases i (length l)); [now rewrite nth_error_app1|]. rewrite nth_error_app2 by lia.
    rewrite (proj2 (nth_error_None l i)) by lia. apply nth_error_None. cbn. lia.
  Qed.
  Lemma count_snoc ts t v : count_occ Nat.eq_dec (ts ++ [t]) v = count_occ Nat.eq_dec ts v + (if t =? v then 1 else 0).
  Proof. rewrite count_occ_app. cbn. destruct (Nat.eq_dec t v), (Nat.eqb_spec t v); lia. Qed.

  (** One transparent: accepted exactly if not smaller than the current number of variables and within the table. *)
  Lemma t_step base ts current ds t : t_inv base ts current ds ->
    (t < current -> transparent_step F (Ok (current, ds)) t = Err) /\
    (length base <= t -> transparent_step F (Ok (current, ds)) t = Panic) /\
    (current <= t < length base -> exists ds', transparent_step F (Ok (current, ds)) t = Ok (t, ds') /\ t_inv base (ts ++ [t]) t ds').
  Proof.
    intros (LD & LC & SO & HC & HV). unfold transparent_step. cbn [rbind].
    destruct (nth_error_ex ds current ltac:(lia)) as [dc Ec]. pose proof (HC _ Ec) as HT.
    split; [intros L; destruct (Nat.ltb_spec t current); [reflexivity|lia]|]. split.
    { intros L. destruct (Nat.ltb_spec t current); [lia|]. destruct (Nat.ltb_spec current t); [|lia]. rewrite Ec. cbn [of_opt rbind].
      rewrite (proj2 (nth_error_None ds t)) by lia. reflexivity. }
    intros [L1 L2]. destruct (Nat.ltb_spec t current); [lia|].
    assert (G : exists ds1 d1, (if current <? t then
         try d <- of_opt (nth_error ds current);
         try next <- of_opt (nth_error ds t);
         Ok (t, upd ds t (mkDesc F (c_lo next) (c_hi next) (t_hi d) (t_hi d) (sums next)))
       else Ok (current, ds)) = Ok (t, ds1) /\ length ds1 = length ds /\ (forall v, v <> t -> nth_error ds1 v = nth_error ds v) /\
       nth_error ds1 t = Some d1 /\ (exists d0, nth_error ds t = Some d0 /\ c_lo d1 = c_lo d0 /\ c_hi d1 = c_hi d0 /\ sums d1 = sums d0) /\
       t_hi d1 = length ts /\ t_lo d1 <= t_hi d1 /\ t_hi d1 - t_lo d1 = count_occ Nat.eq_dec ts t /\ (forall i, t_lo d1 <= i < t_hi d1 <-> nth_error ts i = Some t)).
    { destruct (Nat.ltb_spec current t) as [LT|GE].
      - rewrite Ec. cbn [of_opt rbind]. destruct (nth_error_ex ds t ltac:(lia)) as [nx En]. rewrite En. cbn [of_opt rbind]. cbv zeta. eexists _, _. split; [reflexivity|].
        split; [apply upd_length|]. split; [intros v N; now apply nth_error_upd_ne|]. split; [apply nth_error_upd_eq; lia|]. split; [exists nx; auto|].
        cbn. rewrite HT. split; [auto|]. split; [auto|].
        assert (NI : ~ In t ts) by (intros I; rewrite Forall_forall in SO; specialize (SO t I); lia).
        split; [rewrite (proj1 (count_occ_not_In Nat.eq_dec ts t) NI); lia|]. intros i. split; [lia|]. intros E. exfalso. apply NI. eapply nth_error_In; eauto.
      - assert (t = current) by lia. subst t. exists ds, dc. split; [reflexivity|]. split; [auto|]. split; [auto|]. split; [auto|]. split; [exists dc; auto|].
        destruct (nth_error_ex base current ltac:(lia)) as [b Eb]. destruct (HV current b Eb) as (d & Ed & _ & _ & _ & T1 & T2 & T3 & _). rewrite Ec in Ed. injection Ed as <-.
        auto. }
    destruct G as (ds1 & d1 & -> & L1' & NE & E1 & (d0 & E0 & C1 & C2 & C3) & T1 & T2 & T3 & T4). cbn [rbind]. rewrite E1. cbn [of_opt rbind].
    eexists. split; [reflexivity|]. split; [now rewrite upd_length, L1'|]. split; [lia|]. split.
    { apply Forall_app. split; [|constructor; auto]. eapply Forall_impl; [|exact SO]. cbn. lia. }
    split.
    { intros d Ed. rewrite nth_error_upd_eq in Ed by lia. injection Ed as <-. cbn. rewrite app_length. cbn. lia. }
    intros v b Eb. destruct (HV v b Eb) as (d & Ed & D1 & D2 & D3 & D4 & D5 & D6 & D7). destruct (Nat.eq_dec v t) as [->|N].
    - rewrite nth_error_upd_eq by lia. eexists. split; [reflexivity|]. cbn [MetaModel.c_lo MetaModel.c_hi MetaModel.t_lo MetaModel.t_hi MetaModel.sums].
      rewrite E0 in Ed. injection Ed as <-. rewrite count_snoc, Nat.eqb_refl. repeat split; try congruence; try lia.
      + intros Hi. rewrite nth_error_snoc. destruct (Nat.eqb_spec i (length ts)); [reflexivity|]. apply T4. lia.
      + rewrite nth_error_snoc in H0. destruct (Nat.eqb_spec i (length ts)); [lia|]. apply T4 in H0. lia.
      + rewrite nth_error_snoc in H0. destruct (Nat.eqb_spec i (length ts)); [lia|]. apply T4 in H0. lia.
    - rewrite nth_error_upd_ne, NE by auto. exists d. rewrite count_snoc. destruct (Nat.eqb_spec t v); [congruence|]. rewrite Nat.add_0_r.
      split; [auto|]. do 5 (split; [auto|]). split.
      + intros i. rewrite nth_error_snoc. destruct (Nat.eqb_spec i (length ts)) as [->|]; [|apply D6]. split; [|congruence].
        intros Hi. apply D6 in Hi. apply nth_error_lt in Hi. lia.
      + intros Hv. apply D7. lia.
  Qed.

  (** Nondecreasing lists. *)
  Fixpoint sorted_from (c : nat) (ts : list nat) : Prop := match ts with [] => True | t :: r => c <= t /\ sorted_from t r end.

  Lemma t_loop base ts : forall done current ds, t_inv base done current ds ->
    (sorted_from current ts -> Forall (fun t => t < length base) ts ->
       exists c' ds', fold_left (transparent_step F) ts (Ok (current, ds)) = Ok (c', ds') /\ t_inv base (done ++ ts) c' ds') /\
    (~ sorted_from current ts -> Forall (fun t => t < length base) ts -> fold_left (transparent_step F) ts (Ok (current, ds)) = Err).
  Proof.
    induction ts as [|t ts IH]; intros done current ds I; cbn [fold_left sorted_from].
    - rewrite app_nil_r. split; [eauto|]. intros N. now exfalso.
    - destruct (t_step base done current ds t I) as (S1 & _ & S3). split.
      + intros [L SO] FA. inversion FA as [|? ? Ht FA']; subst. destruct (S3 (conj L Ht)) as (ds' & -> & I'). replace (done ++ t :: ts) with ((done ++ [t]) ++ ts) by now rewrite <- app_assoc.
        destruct (IH _ _ _ I') as [G _]. now apply G.
      + intros N FA. inversion FA as [|? ? Ht FA']; subst. destruct (Nat.lt_ge_cases t current) as [L|L].
        * rewrite (S1 L). clear. induction ts; auto.
        * destruct (S3 (conj L Ht)) as (ds' & -> & I'). destruct (IH _ _ _ I') as [_ G]. apply G; auto.
  Qed.

  (** What a claim becomes: the product of two of the multilinears of its group, committed ones first. *)
  Definition localized (lo hi tlo thi : nat) (c : pclaim) : product_sum F :=
    mkProductSum F ((hi - lo) + (thi - tlo)) (pc_committed F c - lo) ((hi - lo) + (pc_transparent F c - tlo)) (pc_sum F c).
  Definition accepted (m : commit_meta) (ts : list nat) (c : pclaim) : Prop :=
    (exists lo hi, range_by_vars m (pc_n_vars F c) = Ok (lo, hi) /\ lo <= pc_committed F c < hi) /\ nth_error ts (pc_transparent F c) = Some (pc_n_vars F c).
  Definition group (claims : list pclaim) (v : nat) : list pclaim := filter (fun c => pc_n_vars F c =? v) claims.

  Definition g_inv (base : list desc) (claims : list pclaim) (ds : list desc) : Prop :=
    length ds = length base /\ forall v b, nth_error base v = Some b ->
      nth_error ds v = Some (mkDesc F (c_lo b) (c_hi b) (t_lo b) (t_hi b) (map (localized (c_lo b) (c_hi b) (t_lo b) (t_hi b)) (group claims v))).
  Definition fits (base : list desc) (c : pclaim) : Prop :=
    exists b, nth_error base (pc_n_vars F c) = Some b /\ c_lo b <= pc_committed F c < c_hi b /\ t_lo b <= pc_transparent F c < t_hi b.

  Lemma g_step base done ds c : g_inv base done ds ->
    (fits base c -> exists ds', claim_step F (Ok ds) c = Ok ds' /\ g_inv base (done ++ [c]) ds') /\
    (pc_n_vars F c < length base -> ~ fits base c -> claim_step F (Ok ds) c = Err) /\
    (length base <= pc_n_vars F c -> claim_step F (Ok ds) c = Panic).
  Proof.
    intros [LD HD]. unfold claim_step. cbn [rbind]. split; [|split].
    - intros (b & Eb & HC & HT). rewrite (HD _ _ Eb). cbn [of_opt rbind MetaModel.c_lo MetaModel.c_hi MetaModel.t_lo MetaModel.t_hi MetaModel.sums].
      rewrite (proj2 (Nat.leb_le _ _) (proj1 HC)), (proj2 (Nat.ltb_lt _ _) (proj2 HC)). rewrite (proj2 (Nat.leb_le _ _) (proj1 HT)), (proj2 (Nat.ltb_lt _ _) (proj2 HT)). cbn [andb negb].
      unfold index_composition. destruct (Nat.leb_spec (c_hi b - c_lo b + (t_hi b - t_lo b)) (pc_committed F c - c_lo b)); [lia|].
      destruct (Nat.leb_spec (c_hi b - c_lo b + (t_hi b - t_lo b)) (c_hi b - c_lo b + pc_transparent F c - t_lo b)); [lia|]. cbn [orb rbind].
      eexists. split; [reflexivity|]. split; [now rewrite upd_length|]. intros v b' Eb'. unfold group. rewrite filter_app. cbn [filter].
      destruct (Nat.eqb_spec (pc_n_vars F c) v) as [<-|N].
      + rewrite Eb in Eb'. injection Eb' as <-. rewrite nth_error_upd_eq by (rewrite LD; eapply nth_error_lt; eauto). rewrite map_app. cbn [map]. unfold localized at 3.
        replace (c_hi b - c_lo b + pc_transparent F c - t_lo b) with (c_hi b - c_lo b + (pc_transparent F c - t_lo b)) by lia. reflexivity.
      + rewrite nth_error_upd_ne by congruence. rewrite app_nil_r. now apply HD.
    - intros L N. destruct (nth_error_ex base _ L) as [b Eb]. rewrite (HD _ _ Eb). cbn [of_opt rbind MetaModel.c_lo MetaModel.c_hi MetaModel.t_lo MetaModel.t_hi].
      destruct (Nat.leb_spec (c_lo b) (pc_committed F c)); [|reflexivity]. destruct (Nat.ltb_spec (pc_committed F c) (c_hi b)); [|reflexivity]. cbn [andb negb].
      destruct (Nat.leb_spec (t_lo b) (pc_transparent F c)); [|reflexivity]. destruct (Nat.ltb_spec (pc_transparent F c) (t_hi b)); [|reflexivity].
      exfalso. apply N. exists b. auto.
    - intros L. rewrite (proj2 (nth_error_None ds _)) by lia. reflexivity.
  Qed.

  Lemma g_loop base claims : forall done ds, g_inv base done ds ->
    (Forall (fits base) claims -> exists ds', fold_left (claim_step F) claims (Ok ds) = Ok ds' /\ g_inv base (done ++ claims) ds') /\
    (~ Forall (fits base) claims -> Forall (fun c => pc_n_vars F c < length base) claims -> fold_left (claim_step F) claims (Ok ds) = Err).
  Proof.
    induction claims as [|c claims IH]; intros done ds I; cbn [fold_left].
    - rewrite app_nil_r. split; [eauto|]. intros N. exfalso. apply N. constructor.
    - destruct (g_step base done ds c I) as (S1 & S2 & _). split.
      + intros FA. inversion FA as [|? ? Hc FA']; subst. destruct (S1 Hc) as (ds' & -> & I'). replace (done ++ c :: claims) with ((done ++ [c]) ++ claims) by now rewrite <- app_assoc.
        destruct (IH _ _ I') as [G _]. now apply G.
      + intros N FA. inversion FA as [|? ? Hc FA']; subst.
        assert (D : fits base c \/ ~ fits base c).
        { destruct (nth_error_ex base _ Hc) as [b Eb].
          destruct (Nat.le_gt_cases (c_lo b) (pc_committed F c)) as [A1|A1]; [|right; intros (b' & E' & X & Y); rewrite Eb in E'; injection E' as <-; lia].
          destruct (Nat.lt_ge_cases (pc_committed F c) (c_hi b)) as [A2|A2]; [|right; intros (b' & E' & X & Y); rewrite Eb in E'; injection E' as <-; lia].
          destruct (Nat.le_gt_cases (t_lo b) (pc_transparent F c)) as [A3|A3]; [|right; intros (b' & E' & X & Y); rewrite Eb in E'; injection E' as <-; lia].
          destruct (Nat.lt_ge_cases (pc_transparent F c) (t_hi b)) as [A4|A4]; [|right; intros (b' & E' & X & Y); rewrite Eb in E'; injection E' as <-; lia].
          left. exists b. auto. }
        destruct D as [D|D].
        * destruct (S1 D) as (ds' & -> & I'). destruct (IH _ _ I') as [_ G]. apply G; auto.
        * rewrite (S2 Hc D). clear. induction claims; auto.
  Qed.

  (** The grouping succeeds exactly if the transparents are sorted by number of variables and every claim names a committed
      and a transparent multilinear with its number of variables; group [v] then holds the claims with [v] variables, in
      order, as products of two of the group's multilinears, the committed ones of the range of [v] followed by the
      transparent ones. *)
  Theorem claim_descs_correct counts ts claims :
    let m := meta_new counts in
    Forall (fun t => t <= max_n_vars m) ts -> Forall (fun c => pc_n_vars F c <= max_n_vars m) claims ->
    (sorted_from 0 ts -> Forall (accepted m ts) claims ->
       exists ds, make_sumcheck_claim_descs F m ts claims = Ok ds /\ length ds = max_n_vars m + 1 /\
         forall v, v <= max_n_vars m -> exists lo hi tlo thi,
           nth_error ds v = Some (mkDesc F lo hi tlo thi (map (localized lo hi tlo thi) (group claims v))) /\
           (v < length counts -> range_by_vars m v = Ok (lo, hi)) /\ (length counts <= v -> lo = hi) /\
           (forall i, tlo <= i < thi <-> nth_error ts i = Some v) /\ thi - tlo = count_occ Nat.eq_dec ts v) /\
    (~ (sorted_from 0 ts /\ Forall (accepted m ts) claims) -> make_sumcheck_claim_descs F m ts claims = Err).
  Proof.
    intros m HT HC. assert (NM : n_multilins_by_vars m = counts) by (unfold m, meta_new; now rewrite meta_fold_spec).
    unfold make_sumcheck_claim_descs. rewrite NM. set (n := max_n_vars m + 1).
    assert (LN : length counts <= n) by (unfold n, max_n_vars; rewrite NM; lia).
    set (base := set_committed F counts 0 (repeat (default_desc F) n)).
    destruct (set_committed_spec counts 0 (repeat (default_desc F) n)) as [LB HB]; [now rewrite repeat_length|]. rewrite repeat_length in LB. fold base in LB, HB.
    assert (BASE : forall v, v < n -> exists b, nth_error base v = Some b /\ t_lo b = 0 /\ t_hi b = 0 /\ sums b = [] /\
       (v < length counts -> range_by_vars m v = Ok (c_lo b, c_hi b)) /\ (length counts <= v -> c_lo b = c_hi b)).
    { intros v Hv. destruct (HB v (default_desc F)) as (b & Eb & T1 & T2 & T3 & C1 & C2).
      { rewrite (nth_error_nth_eq _ v (default_desc F)) by (now rewrite repeat_length). f_equal. now apply nth_repeat0. }
      exists b. split; [exact Eb|]. do 3 (split; [auto|]). split.
      - intros L. destruct (C1 L) as [-> ->]. unfold m. now rewrite range_ok.
      - intros L. destruct (C2 L) as [-> ->]. reflexivity. }
    assert (I0 : t_inv base [] 0 base).
    { split; [auto|]. split; [rewrite LB; unfold n; lia|]. split; [constructor|]. split.
      - intros d Ed. destruct (BASE 0) as (b & Eb & _ & Tb & _); [unfold n; lia|]. rewrite Ed in Eb. injection Eb as ->. rewrite Tb. reflexivity.
      - intros v b Eb. assert (Hv : v < n) by (rewrite <- LB; eapply nth_error_lt; eauto). destruct (BASE v Hv) as (b' & Eb' & T1 & T2 & T3 & _).
        rewrite Eb in Eb'. injection Eb' as <-. exists b. rewrite T1, T2. do 3 (split; [auto|]). split; [reflexivity|]. split; [auto|]. split; [reflexivity|]. split; [|auto].
        intros i. split; [lia|]. destruct i; discriminate. }
    assert (HT' : Forall (fun t => t < length base) ts) by (eapply Forall_impl; [|exact HT]; cbn; rewrite LB; unfold n; lia).
    destruct (t_loop base ts [] 0 base I0) as [TL1 TL2].
    assert (SD : sorted_from 0 ts \/ ~ sorted_from 0 ts).
    { clear. generalize 0. induction ts as [|t ts IH]; intros c; cbn; [now left|]. destruct (Nat.le_gt_cases c t), (IH t); try tauto. right. lia. }
    destruct SD as [SD|SD].
    2:{ rewrite (TL2 SD HT'). split; [tauto|reflexivity]. }
    destruct (TL1 SD HT') as (cur & ds1 & -> & LD1 & _ & _ & _ & HD1). cbn [rbind app] in *.
    assert (FITS : forall c, pc_n_vars F c < length ds1 -> (fits ds1 c <-> accepted m ts c)).
    { intros c Hc. assert (Hn : pc_n_vars F c < n) by lia. destruct (BASE _ Hn) as (b & Eb & _ & _ & _ & R1 & R2). destruct (HD1 _ _ Eb) as (d & Ed & C1 & C2 & _ & _ & _ & TI & _).
      unfold fits, accepted. split.
      - intros (d' & Ed' & X & Y). rewrite Ed in Ed'. injection Ed' as <-. split; [|now apply TI]. exists (c_lo b), (c_hi b). rewrite <- C1, <- C2. split; [|auto].
        rewrite C1, C2. apply R1. destruct (Nat.lt_ge_cases (pc_n_vars F c) (length counts)); auto. rewrite C1, C2 in X. specialize (R2 H). lia.
      - intros ((lo & hi & ER & X) & Y). exists d. split; [auto|]. split; [|now apply TI].
        destruct (Nat.lt_ge_cases (pc_n_vars F c) (length counts)) as [L|L]; [|unfold m in ER; rewrite range_panics in ER by auto; discriminate].
        rewrite (R1 L) in ER. injection ER as <- <-. now rewrite C1, C2. }
    assert (HC' : Forall (fun c => pc_n_vars F c < length ds1) claims) by (eapply Forall_impl; [|exact HC]; cbn; rewrite LD1, LB; unfold n; lia).
    assert (FA : Forall (fits ds1) claims <-> Forall (accepted m ts) claims).
    { rewrite Forall_forall in HC'. rewrite !Forall_forall. split; intros H c Hc; apply (FITS c (HC' c Hc)); auto. }
    assert (G0 : g_inv ds1 [] ds1).
    { split; [auto|]. intros v d Ed. assert (Hv : v < n) by (rewrite <- LB, <- LD1; eapply nth_error_lt; eauto). destruct (BASE v Hv) as (b & Eb & _ & _ & S0 & _).
      destruct (HD1 _ _ Eb) as (d' & Ed' & _ & _ & S1 & _). rewrite Ed in Ed'. injection Ed' as <-. rewrite Ed. f_equal. destruct d; cbn in *. congruence. }
    destruct (g_loop ds1 claims [] ds1 G0) as [GL1 GL2]. split.
    - intros _ FC. destruct (GL1 (proj2 FA FC)) as (ds & -> & LD & HD). cbn [app] in HD. exists ds. split; [reflexivity|]. split; [unfold n in *; lia|].
      intros v Hv. destruct (BASE v) as (b & Eb & _ & _ & _ & R1 & R2); [unfold n; lia|]. destruct (HD1 _ _ Eb) as (d & Ed & C1 & C2 & _ & _ & T2 & T3 & _).
      exists (c_lo d), (c_hi d), (t_lo d), (t_hi d). split; [now apply HD|]. rewrite C1, C2. auto.
    - intros N. apply GL2; [|exact HC']. rewrite FA. tauto.
  Qed.

  (** A transparent or a claim with more variables than any committed multilinear is a panic, not an error. *)
  Theorem claim_descs_panic_refuted counts t (c : pclaim) :
    let m := meta_new counts in
    (max_n_vars m < t -> make_sumcheck_claim_descs F m [t] [] = Panic) /\
    (max_n_vars m < pc_n_vars F c -> make_sumcheck_claim_descs F m [] [c] = Panic).
  Proof.
    intros m. unfold make_sumcheck_claim_descs.
    assert (NM : n_multilins_by_vars m = counts) by (unfold m, meta_new; now rewrite meta_fold_spec). rewrite NM.
    destruct (set_committed_spec counts 0 (repeat (default_desc F) (max_n_vars m + 1))) as [LB _]; [rewrite repeat_length; unfold max_n_vars; rewrite NM; lia|]. rewrite repeat_length in LB.
    set (base := set_committed F counts 0 (repeat (default_desc F) (max_n_vars m + 1))) in *. split; intros H.
    - cbn [fold_left]. unfold transparent_step. cbn [rbind]. destruct (Nat.ltb_spec t 0); [lia|]. destruct (Nat.ltb_spec 0 t); [|lia].
      destruct (nth_error_ex base 0 ltac:(lia)) as [d ->]. cbn [of_opt rbind]. rewrite (proj2 (nth_error_None base t)) by lia. reflexivity.
    - cbn [fold_left rbind]. unfold claim_step. cbn [rbind]. rewrite (proj2 (nth_error_None base _)) by lia. reflexivity.
  Qed.
End Descs.

(** *** Concrete cases *)
Example commit_meta_ex :
  match make_oracle_commit_meta [Some 3; None; Some 1; Some 3; None; Some 0] with
  | Ok (m, index) => index = [Some 2; None; Some 1; Some 3; None; Some 0] /\ total_vars m = 5 /\ total_multilins m = 4 /\ range_by_vars m 3 = Ok (2, 4) /\
      collect_committed_witnesses m index (fun i => Ok i) = Ok [5; 2; 0; 3]
  | _ => False end.
Proof. vm_compute. repeat split. Qed.

Example claim_descs_ex :
  let m := with_vars [3; 1; 3; 0] in
  let claims := [mkPiopClaim X16 3 2 1 (el 5); mkPiopClaim X16 1 1 0 (el 7); mkPiopClaim X16 3 3 2 (el 1)] in
  Forall (fun t => t <= max_n_vars m) [1; 3; 3] /\ sorted_from 0 [1; 3; 3] /\ Forall (accepted X16 m [1; 3; 3]) claims /\
  match make_sumcheck_claim_descs X16 m [1; 3; 3] claims with
  | Ok ds => map (fun d => (c_lo X16 d, c_hi X16 d, t_lo X16 d, t_hi X16 d, map (fun p => (ps_n X16 p, ps_left X16 p, ps_right X16 p, bits (ps_sum X16 p))) (sums X16 d))) ds =
      [(0, 1, 0, 0, []); (1, 2, 0, 1, [(2, 0, 1, 7%N)]); (2, 2, 0, 0, []); (2, 4, 1, 3, [(4, 0, 2, 5%N); (4, 1, 3, 1%N)])]
  | _ => False end /\
  match make_sumcheck_claim_descs X16 m [3; 1] [] with Err => True | _ => False end /\
  match make_sumcheck_claim_descs X16 m [1; 3; 3] [mkPiopClaim X16 3 1 1 (el 5)] with Err => True | _ => False end.
Proof.
  cbv zeta. split; [repeat constructor; vm_compute; repeat constructor|]. split; [cbn; lia|]. split.
  - repeat constructor; cbn; eexists _, _; (split; [reflexivity|cbn; lia]).
  - vm_compute. repeat split; reflexivity.
Qed.
