(** Folding the multilinears of a sumcheck prover substitutes the challenge. *)
Require Import Coq.setoid_ring.Ring Coq.Arith.Arith Coq.Lists.List Coq.Bool.Bool Lia.
From Verif Require Import Base.Fld Base.Lists Base.Sums Base.NatBits Math.MleSpec Math.MleModel Math.MleProofs Math.MleProps
  Math.TensorProps Math.UnivariateModel Math.UnivariateProps Math.SubcubeModel Math.SubcubeProps
  Sumcheck.SumcheckModel Sumcheck.SumcheckSpec Sumcheck.SumcheckProofs Sumcheck.StateModel.
Import ListNotations.

Lemma div_ceil_mul_ge a b : (0 < b -> a <= div_ceil a b * b)%nat.
Proof. intros H. unfold div_ceil. pose proof (Nat.div_mod (a + b - 1) b ltac:(lia)). pose proof (Nat.mod_upper_bound (a + b - 1) b ltac:(lia)). nia. Qed.

Lemma div_ceil_lt a b i : (0 < b -> i < div_ceil a b -> i * b < a)%nat.
Proof.
  intros H Hi. unfold div_ceil in Hi.
  assert (S i * b <= a + b - 1)%nat; [|nia].
  transitivity ((a + b - 1) / b * b)%nat; [nia|]. rewrite Nat.mul_comm. apply Nat.mul_div_le. lia.
Qed.

Lemma div_ceil_le a b c : (0 < b -> a <= c * b -> div_ceil a b <= c)%nat.
Proof.
  intros H Ha. destruct (Nat.le_gt_cases (div_ceil a b) c) as [|L]; auto. apply div_ceil_lt in L; nia.
Qed.

Section Proofs.
  Variable F : field.
  Variable lw mb : nat.
  Variable junk : nat -> list F.
  Hypothesis junk_length : forall n, length (junk n) = n.
  Local Open Scope fld_scope.
  Add Ring Fring : (f_ring F).

  (** The table after substituting the challenges [p], with [k] variables left. *)
  Definition cur (o : order) (v : nat -> F) (p : list F) (k x : nat) : F :=
    match o with
    | LowToHigh => mle v (p ++ vertex k x)
    | HighToLow => mle v (vertex k x ++ rev p)
    end.

  (** the two entries that are combined by a round *)
  Definition ix (o : order) (k : nat) (b : bool) (y : nat) : nat :=
    match o with
    | LowToHigh => if b then (2 * y + 1)%nat else (2 * y)%nat
    | HighToLow => if b then (y + 2 ^ k)%nat else y
    end.

  Lemma ix_lt o k b y : (y < 2 ^ k)%nat -> (ix o k b y < 2 ^ S k)%nat.
  Proof. rewrite pow2_S. destruct o, b; cbn [ix]; lia. Qed.

  Lemma vertex_snoc k y : forall b : bool, (y < 2 ^ k)%nat ->
    vertex (S k) (y + (if b then 2 ^ k else 0))%nat = vertex k y ++ [if b then 1 else 0 : F].
  Proof.
    revert y. induction k as [|k IH]; intros y b Hy.
    - cbn in Hy. replace y with 0%nat by lia. destruct b; reflexivity.
    - change (vertex (S (S k)) ?z) with ((if Nat.odd z then 1 else 0) :: @vertex F (S k) (z / 2)).
      change (vertex (S k) y) with ((if Nat.odd y then 1 else 0) :: @vertex F k (y / 2)). cbn [app].
      rewrite <- (IH (y / 2)%nat b) by (now apply div2_lt_pow).
      pose proof (odd_div y) as E. set (h := (y / 2)%nat) in *.
      assert (G : (y + (if b then 2 ^ S k else 0) = 2 * (h + (if b then 2 ^ k else 0)) + (if Nat.odd y then 1 else 0))%nat).
      { rewrite E at 1. destruct b; rewrite ?pow2_S; destruct (Nat.odd y); lia. }
      rewrite G. destruct (Nat.odd y); rewrite ?odd_double, ?div_double by lia; reflexivity.
  Qed.

  (** the point of a vertex of the round *)
  Lemma cur_point o v p k y b : (y < 2 ^ k)%nat ->
    cur o v p (S k) (ix o k b y) = cur o v (p ++ [if b then 1 else 0]) k y.
  Proof.
    intros Hy. destruct o; cbn [cur ix].
    - rewrite <- app_assoc. cbn [app]. do 2 f_equal. cbn [vertex].
      destruct b; [rewrite odd_double, div_double by lia|rewrite odd_double0, div_double0]; reflexivity.
    - rewrite rev_app_distr. cbn [rev app].
      pose proof (vertex_snoc k y b Hy) as E. destruct b; rewrite ?Nat.add_0_r in E; rewrite E, <- app_assoc; reflexivity.
  Qed.

  Lemma cur_line o v p k y r :
    cur o v (p ++ [r]) k y = (1 - r) * cur o v (p ++ [0]) k y + r * cur o v (p ++ [1]) k y.
  Proof.
    destruct o; cbn [cur].
    - rewrite <- !app_assoc. cbn [app]. apply mle_affine.
    - rewrite !rev_app_distr. cbn [rev app]. apply mle_affine.
  Qed.

  Lemma cur_fold o v p k y r : (y < 2 ^ k)%nat ->
    cur o v (p ++ [r]) k y = (1 - r) * cur o v p (S k) (ix o k false y) + r * cur o v p (S k) (ix o k true y).
  Proof. intros Hy. rewrite cur_line, !cur_point by auto. reflexivity. Qed.

  (* ---------------------------------------------------------------- *)
  (** Representation of a table by a multilinear of the prover. *)

  Definition poly_ok (m : mpoly F) : Prop :=
    mle_wf (mp_lw m) (mp_mle m) /\ (lw <= mp_lw m)%nat /\
    (mp_direct m = true -> mp_lw m = lw) /\ (mp_same m = true -> mp_lw m = lw).

  (** a folded vector *)
  Definition frep (evals : list F) (suffix : F) (k : nat) (t : nat -> F) : Prop :=
    (exists K, length evals = (K * 2 ^ lw)%nat) /\
    forall x, (x < 2 ^ k)%nat -> t x = if (x <? length evals)%nat then nth x evals 0 else suffix.

  (** [n]: number of variables of the table [v]; [p]: challenges so far; [k]: variables left *)
  Definition rep (o : order) (n : nat) (v : nat -> F) (p : list F) (k : nat) (m : smle F) : Prop :=
    match m with
    | Transp q sw suffix slen =>
      poly_ok q /\ me_mu (mp_mle q) = n /\ (slen <= 2 ^ n)%nat /\
      (forall x, (x < 2 ^ n)%nat -> table (mp_mle q) x = v x) /\
      (forall x, (2 ^ n - slen <= x < 2 ^ n)%nat -> v x = suffix)
    | Folded evals suffix => frep evals suffix k (cur o v p k)
    end.

  (** The tensor query of a prover that still has transparent multilinears. *)
  Definition query_ok (o : order) (p : list F) (tq : option (mquery F)) : Prop :=
    exists q c, tq = Some q /\ query_holds lw c q (pt o p).

  Lemma mle_const (v : nat -> F) r a : (forall x, (x < 2 ^ length r)%nat -> v x = a) -> mle v r = a.
  Proof.
    intros H. unfold mle. rewrite (sumn_ext _ _ _ (fun x => a * eqw r x)) by (intros; now rewrite H).
    rewrite sumn_scale, eqw_sum. ring.
  Qed.

  Lemma cur_suffix_low (v : nat -> F) p k prefix suffix y :
    (forall x, (prefix <= x < 2 ^ (length p + k))%nat -> v x = suffix) ->
    (y < 2 ^ k)%nat -> (prefix <= y * 2 ^ length p)%nat -> mle v (p ++ vertex k y) = suffix.
  Proof.
    intros HV Hy HP. rewrite mle_app_low, mle_on_cube by auto. apply mle_const. intros x Hx. apply HV.
    split; [nia|]. rewrite Nat.pow_add_r. nia.
  Qed.

  Lemma cur_suffix_high (v : nat -> F) p k prefix suffix y :
    (forall x, (prefix <= x < 2 ^ (length p + k))%nat -> v x = suffix) ->
    (y < 2 ^ k)%nat -> (prefix <= y)%nat -> mle v (vertex k y ++ p) = suffix.
  Proof.
    intros HV Hy HP. rewrite mle_app_high, mle_on_cube by (now rewrite ?vertex_length). rewrite vertex_length.
    apply mle_const. intros x Hx. apply HV. split; [nia|]. rewrite Nat.pow_add_r. nia.
  Qed.

  Lemma concat_nth (ls : list (list F)) w x : (forall l, In l ls -> length l = w) -> (0 < w)%nat ->
    (x < length ls * w)%nat -> nth x (concat ls) 0 = nth (x mod w) (nth (x / w) ls []) 0.
  Proof.
    intros HL Hw. revert x. induction ls as [|l ls IH]; intros x Hx; cbn [concat length] in *; [lia|].
    assert (Ll : length l = w) by (apply HL; now left).
    destruct (Nat.lt_ge_cases x w) as [L|L].
    - rewrite app_nth1 by lia. rewrite Nat.mod_small, Nat.div_small by auto. reflexivity.
    - rewrite app_nth2 by lia. rewrite IH by (try (intros; apply HL; now right); lia). rewrite Ll.
      replace x with ((x - w) + 1 * w)%nat at 3 4 by lia. rewrite Nat.mod_add, Nat.div_add by lia.
      rewrite Nat.add_1_r. reflexivity.
  Qed.

  Lemma concat_len (ls : list (list F)) w : (forall l, In l ls -> length l = w) -> length (concat ls) = (length ls * w)%nat.
  Proof.
    induction ls as [|l ls IH]; intros HL; cbn [concat length]; [reflexivity|].
    rewrite app_length, IH by (intros; apply HL; now right). rewrite (HL l) by (now left). reflexivity.
  Qed.

  Lemma sv_bounds a b k sv : sv = subcube_vars_for_bits lw mb a b k -> (sv <= k)%nat /\ ((lw <= sv)%nat \/ sv = k).
  Proof. intros ->. unfold subcube_vars_for_bits. lia. Qed.

  Lemma collect_ex {A B} (f : A -> res B) (P : A -> B -> Prop) (l : list A) :
    (forall a, In a l -> exists b, f a = Ok b /\ P a b) ->
    exists bs, collect_res (map f l) = Ok bs /\ Forall2 P l bs.
  Proof.
    induction l as [|a l IH]; intros H; cbn [map collect_res].
    - exists []. split; [reflexivity|constructor].
    - destruct (H a (or_introl eq_refl)) as [b [E PB]]. destruct IH as [bs [E' PB']]; [intros; apply H; now right|].
      exists (b :: bs). rewrite E. cbn [rbind]. rewrite E'. split; [reflexivity|]. now constructor.
  Qed.

  Lemma forall2_length {A B} (P : A -> B -> Prop) l bs : Forall2 P l bs -> length l = length bs.
  Proof. induction 1; cbn; lia. Qed.

  Lemma forall2_nth {A B} (P : A -> B -> Prop) l bs i da db : Forall2 P l bs -> (i < length l)%nat -> P (nth i l da) (nth i bs db).
  Proof. intros H. revert i. induction H as [|a b l bs HP H IH]; intros [|i] Hi; cbn in *; try lia; auto. apply IH. lia. Qed.

  (** The chunked computation at the switchover. *)
  Lemma switchover_chunks_ok (get : nat -> list F -> res (list F)) sv k scalars suffix (t : nat -> F) :
    (sv <= k)%nat -> (lw <= sv)%nat \/ sv = k -> (scalars <= 2 ^ k)%nat ->
    (forall i, (i < 2 ^ (k - sv))%nat -> exists o, get i (repeat 0 (2 ^ (sv - lw) * 2 ^ lw)) = Ok o /\
        length o = (2 ^ (sv - lw) * 2 ^ lw)%nat /\ forall s, (s < 2 ^ sv)%nat -> nth s o 0 = t (i * 2 ^ sv + s)%nat) ->
    (forall x, (scalars <= x < 2 ^ k)%nat -> t x = suffix) ->
    exists ev, switchover_chunks lw get sv scalars = Ok ev /\ frep ev suffix k t.
  Proof.
    intros Hk Hs Hsc HG HT. unfold switchover_chunks.
    pose proof (pow2_pos sv) as Ps. pose proof (pow2_pos lw) as Pw.
    set (n := div_ceil scalars (2 ^ sv)). set (w := (2 ^ (sv - lw) * 2 ^ lw)%nat).
    assert (Hn : (n <= 2 ^ (k - sv))%nat).
    { apply div_ceil_le; auto. rewrite <- Nat.pow_add_r. replace (k - sv + sv)%nat with k by lia. exact Hsc. }
    destruct (collect_ex (fun i => get i (repeat 0 w))
      (fun i o => length o = w /\ forall s, (s < 2 ^ sv)%nat -> nth s o 0 = t (i * 2 ^ sv + s)%nat) (seq 0 n)) as [ls [E FA]].
    { intros i Hi. apply in_seq in Hi. destruct (HG i) as [o [E [L V]]]; [lia|]. exists o. auto. }
    rewrite E. cbn [rbind]. eexists. split; [reflexivity|].
    pose proof (forall2_length _ _ _ FA) as LL. rewrite seq_length in LL.
    assert (WL : forall l, In l ls -> length l = w).
    { intros l Hl. apply (In_nth _ _ []) in Hl as [i [Hi <-]].
      apply (forall2_nth _ _ _ i 0%nat [] FA). rewrite seq_length. lia. }
    assert (LC : length (concat ls) = (n * w)%nat) by (rewrite (concat_len ls w) by auto; lia).
    assert (Pw' : (0 < w)%nat) by (unfold w; pose proof (pow2_pos (sv - lw)); nia).
    set (keep := (div_ceil scalars (2 ^ lw) * 2 ^ lw)%nat).
    assert (VAL : forall x, (x < n * w)%nat -> (x < 2 ^ k)%nat -> nth x (concat ls) 0 = t x).
    { intros x Hx Hxk. rewrite (concat_nth ls w) by (auto; lia).
      destruct Hs as [Hs| ->].
      - assert (W2 : (w = 2 ^ sv)%nat) by (unfold w; rewrite <- Nat.pow_add_r; f_equal; lia). rewrite W2 in Hx |- *.
        assert (xi : (x / 2 ^ sv < n)%nat) by (apply Nat.div_lt_upper_bound; [lia|]; nia).
        pose proof (forall2_nth _ _ _ (x / 2 ^ sv) 0%nat [] FA) as [_ V]; [now rewrite seq_length|].
        rewrite V by apply mod_lt. rewrite seq_nth by auto. cbn [Nat.add]. f_equal. symmetry. apply mix_dm.
      - assert (w >= 2 ^ k)%nat by apply sv_len.
        rewrite Nat.mod_small, Nat.div_small by lia.
        pose proof (forall2_nth _ _ _ 0 0%nat [] FA) as [_ V]; [rewrite seq_length; nia|].
        rewrite V by auto. rewrite seq_nth by nia. f_equal. }
    assert (KL : (keep <= n * w)%nat).
    { unfold keep. destruct Hs as [Hs| ->].
      - assert (W2 : (w = 2 ^ sv)%nat) by (unfold w; rewrite <- Nat.pow_add_r; f_equal; lia). rewrite W2.
        replace (2 ^ sv)%nat with (2 ^ (sv - lw) * 2 ^ lw)%nat by (rewrite <- Nat.pow_add_r; f_equal; lia).
        rewrite Nat.mul_assoc. apply Nat.mul_le_mono_r. apply div_ceil_le; auto.
        rewrite <- Nat.mul_assoc. replace (2 ^ (sv - lw) * 2 ^ lw)%nat with (2 ^ sv)%nat by (rewrite <- Nat.pow_add_r; f_equal; lia).
        now apply div_ceil_mul_ge.
      - destruct (Nat.eq_dec scalars 0) as [->|NZ].
        + replace (div_ceil 0 (2 ^ lw)) with 0%nat; [lia|]. symmetry. apply Nat.le_0_r. apply div_ceil_le; lia.
        + assert (1 <= n)%nat. { destruct n eqn:En; [|lia]. pose proof (div_ceil_mul_ge scalars (2 ^ k) Ps). fold n in H. lia. }
          transitivity w; [|nia]. unfold w. apply Nat.mul_le_mono_r. apply div_ceil_le; auto.
          pose proof (sv_len k lw). lia. }
    split.
    - exists (div_ceil scalars (2 ^ lw)). rewrite firstn_length, LC. fold keep. lia.
    - intros x Hx. rewrite firstn_length, LC. fold keep. rewrite Nat.min_l by auto.
      destruct (Nat.ltb_spec x keep) as [Lx|Lx].
      + rewrite nth_firstn_lt by auto. symmetry. apply VAL; lia.
      + apply HT. split; auto. pose proof (div_ceil_mul_ge scalars (2 ^ lw) Pw). fold keep in H. lia.
  Qed.

  Lemma frep_full ev suffix k t : length ev = (2 ^ (k - lw) * 2 ^ lw)%nat ->
    (forall x, (x < 2 ^ k)%nat -> t x = nth x ev 0) -> frep ev suffix k t.
  Proof.
    intros HL HV. split; [eauto|]. intros x Hx. pose proof (sv_len k lw). rewrite (proj2 (Nat.ltb_lt _ _)) by lia. auto.
  Qed.

  Lemma table_vertex (m : mlext F) w x : mle_wf w m -> (x < 2 ^ me_mu m)%nat -> nth x (me_evals m) 0 = mle (table m) (vertex (me_mu m) x).
  Proof. intros. now rewrite mle_on_cube. Qed.

  Lemma fold_low_ok n v p k r tq m : length p = (n - S k)%nat -> (S k <= n)%nat ->
    rep LowToHigh n v p (S k) m ->
    (match m with Transp _ _ _ _ => query_ok LowToHigh (p ++ [r]) tq | _ => True end) ->
    exists m' b, fold_low_to_high lw mb (S k) r tq m = Ok (m', b) /\ rep LowToHigh n v (p ++ [r]) k m' /\
      b = match m' with Transp _ _ _ _ => true | _ => false end /\
      match m, m' with
      | Transp _ sw _ _, Transp _ sw' _ _ => sw = S sw'
      | Transp _ sw _ _, Folded _ _ => sw = 0%nat
      | Folded _ _, Transp _ _ _ _ => False
      | _, _ => True
      end.
  Proof.
    intros Lp Hkn HR HQ. unfold fold_low_to_high. cbn [Nat.eqb].
    destruct m as [q sw suffix slen|evals suffix].
    - destruct HR as [PO [MU [SL [TV SV]]]]. destruct (Nat.eqb_spec sw 0) as [->|NZ].
      2:{ eexists _, _. split; [reflexivity|]. split; [repeat split; auto|]; try apply PO; try apply SV; auto. split; [reflexivity|]. lia. }
      destruct HQ as [tqq [c [-> HQ]]]. cbn [of_opt rbind pt] in *.
      pose proof (proj1 HQ) as QN. rewrite app_length in QN. cbn [length] in QN.
      destruct (Nat.eqb_spec (q_nvars tqq) 0); [lia|]. rewrite MU.
      rewrite (proj2 (Nat.ltb_ge _ _)) by lia.
      set (prefix := (2 ^ n - slen)%nat).
      assert (Lpr : length (p ++ [r]) = (n - k)%nat) by (rewrite app_length; cbn; lia).
      assert (QN' : q_nvars tqq = (n - k)%nat) by lia.
      assert (T' : forall b, length b = n -> mle (table (mp_mle q)) b = mle v b).
      { intros b Hb. apply mle_ext. intros x Hx. apply TV. now rewrite <- Hb. }
      destruct (Nat.ltb_spec prefix (2 ^ S k)) as [LP|LP].
      + set (sv := subcube_vars_for_bits lw mb (Nat.log2_up prefix) (q_nvars tqq) (S k - 1)).
        destruct (sv_bounds _ _ _ sv eq_refl) as [B1 B2]. replace (S k - 1)%nat with k in * by lia.
        destruct (switchover_chunks_ok (subcube_partial_low_evals lw (mp_mle q) tqq sv) sv k (div_ceil prefix (2 ^ q_nvars tqq)) suffix
                    (cur LowToHigh v (p ++ [r]) k)) as [ev [E FR]]; auto.
        * apply div_ceil_le; [apply pow2_pos|]. rewrite <- Nat.pow_add_r, QN'. replace (k + (n - k))%nat with n by lia. unfold prefix. lia.
        * intros i Hi.
          destruct (subcube_partial_low_correct F (mp_lw q) lw c (mp_mle q) tqq (p ++ [r]) sv i
                     (repeat 0 (2 ^ (sv - lw) * 2 ^ lw)) (2 ^ (sv - lw)) (proj1 PO) HQ (repeat_length _ _)) as [o [E [L [V _]]]].
          { rewrite Lpr, MU. split; [lia|]. split; [|reflexivity]. replace (n - (n - k) - sv)%nat with (k - sv)%nat by lia. auto. }
          exists o. split; auto. rewrite repeat_length in L. split; auto. intros s Hs. rewrite V by auto.
          rewrite Lpr, MU. replace (n - (n - k))%nat with k by lia. apply T'. rewrite app_length, vertex_length. lia.
        * intros x [H1 H2]. cbn [cur]. apply cur_suffix_low with (prefix := prefix); auto.
          { intros z Hz. apply SV. rewrite Lpr in Hz. replace (n - k + k)%nat with n in Hz by lia. unfold prefix in Hz. lia. }
          rewrite Lpr, <- QN'. etransitivity; [apply (div_ceil_mul_ge prefix (2 ^ q_nvars tqq)), pow2_pos|]. now apply Nat.mul_le_mono_r.
        * rewrite E. cbn [rbind]. eexists _, _. split; [reflexivity|]. split; [exact FR|]. auto.
      + pose proof (evaluate_partial_low_correct F (mp_lw q) lw c (mp_mle q) tqq (p ++ [r]) (proj1 PO) HQ) as P.
        rewrite Lpr, MU, (proj2 (Nat.leb_le _ _)) in P by lia. destruct P as [m' [E [W' [M' V]]]].
        rewrite E. cbn [rbind]. eexists _, _. split; [reflexivity|]. split; [|auto]. cbn [rep].
        replace (n - (n - k))%nat with k in M' by lia. rewrite M' in V.
        apply frep_full; [red in W'; now rewrite M' in W'|].
        intros x Hx. cbn [cur]. rewrite <- T' by (rewrite app_length, vertex_length; lia).
        rewrite <- V by (now rewrite vertex_length). now apply mle_on_cube.
    - destruct HR as [[K HK] HV]. pose proof (pow2_pos lw) as Pw.
      rewrite HK, Nat.div_mul by lia. set (NL := div_ceil K 2).
      assert (NLK : (2 * NL = K \/ 2 * NL = K + 1)%nat).
      { pose proof (div_ceil_mul_ge K 2 ltac:(lia)). fold NL in H.
        destruct (Nat.le_gt_cases (2 * NL) (K + 1)); [lia|].
        pose proof (div_ceil_lt K 2 (NL - 1) ltac:(lia)). fold NL in H1. lia. }
      pose proof (fold_right_lerp_correct F lw evals (K * 2 ^ lw) r suffix (repeat 0 (NL * 2 ^ lw)) NL (repeat_length _ _)) as P.
      rewrite repeat_length, HK, Nat.leb_refl, (proj2 (Nat.leb_le _ _)) in P by nia.
      destruct P as [o [E [L V]]]. rewrite E. cbn [rbind].
      set (o' := if ((0 <? K) && (K mod 2 =? 1) && (0 <? lw))%nat%bool then _ else o).
      eexists _, _. split; [reflexivity|]. split; [|auto]. cbn [rep].
      assert (PV : forall x, (x < 2 ^ S k)%nat -> padded evals (K * 2 ^ lw) suffix x = cur LowToHigh v p (S k) x).
      { intros x Hx. rewrite HV by auto. unfold padded. now rewrite HK. }
      assert (L' : length o' = (NL * 2 ^ lw)%nat).
      { unfold o'. destruct (_ && _); auto. generalize (seq (2 ^ lw / 2) (2 ^ lw - 2 ^ lw / 2)). intros l. revert o L E V o'.
        intros o L _ _ _. revert o L. induction l as [|a l IH]; intros o L; cbn [fold_left]; auto. apply IH. now rewrite upd_length. }
      split; [rewrite L'; eauto|].
      intros x Hx. rewrite L', (cur_fold LowToHigh) by auto. cbn [ix].
      rewrite <- !PV by (rewrite pow2_S; lia).
      assert (SUF : (K * 2 ^ lw <= 2 * x)%nat ->
        (1 - r) * padded evals (K * 2 ^ lw) suffix (2 * x) + r * padded evals (K * 2 ^ lw) suffix (2 * x + 1) = suffix).
      { intros H. unfold padded. rewrite !(proj2 (Nat.ltb_ge _ _)) by lia. ring. }
      destruct (Nat.ltb_spec x (NL * 2 ^ lw)) as [Lx|Lx]; [|apply SUF; nia].
      unfold o'. destruct ((0 <? K) && (K mod 2 =? 1) && (0 <? lw))%nat%bool eqn:C.
      + apply andb_true_iff in C as [C C3]. apply andb_true_iff in C as [C1 C2].
        apply Nat.ltb_lt in C1, C3. apply Nat.eqb_eq in C2.
        assert (HW : (2 ^ lw = 2 * (2 ^ (lw - 1)))%nat) by (destruct lw; [lia|]; cbn [Nat.sub]; rewrite Nat.sub_0_r, pow2_S; lia).
        assert (K = 2 * (NL - 1) + 1)%nat.
        { destruct NLK as [N|N]; [|lia]. rewrite <- N, Nat.mul_comm, Nat.mod_mul in C2 by lia. lia. }
        assert (FU : forall n s (o : list F), ((NL - 1) * 2 ^ lw + s + n <= length o)%nat ->
          nth x (fold_left (fun o i => upd o ((NL - 1) * 2 ^ lw + i)%nat suffix) (seq s n) o) 0 =
          if ((NL - 1) * 2 ^ lw + s <=? x)%nat && (x <? (NL - 1) * 2 ^ lw + s + n)%nat then suffix else nth x o 0).
        { induction n0 as [|n0 IH]; intros s o1 Ho; cbn [seq fold_left].
          - destruct (Nat.leb_spec ((NL - 1) * 2 ^ lw + s) x), (Nat.ltb_spec x ((NL - 1) * 2 ^ lw + s + 0)); cbn; auto; lia.
          - rewrite IH by (rewrite upd_length; lia).
            rewrite upd_nth, (proj2 (Nat.ltb_lt _ (length o1))) by lia. rewrite andb_true_r.
            destruct (Nat.leb_spec ((NL - 1) * 2 ^ lw + S s) x), (Nat.ltb_spec x ((NL - 1) * 2 ^ lw + S s + n0)),
              (Nat.leb_spec ((NL - 1) * 2 ^ lw + s) x), (Nat.ltb_spec x ((NL - 1) * 2 ^ lw + s + S n0)),
              (Nat.eqb_spec x ((NL - 1) * 2 ^ lw + s)); cbn; auto; lia. }
        assert (H2 : (2 ^ lw / 2 = 2 ^ (lw - 1))%nat) by (rewrite HW, Nat.mul_comm, Nat.div_mul; lia).
        rewrite FU; [|rewrite L, H2; nia]. rewrite H2.
        destruct (Nat.leb_spec ((NL - 1) * 2 ^ lw + 2 ^ (lw - 1)) x) as [A|A]; cbn [andb].
        * assert (S1 : (NL * 2 ^ lw = (NL - 1) * 2 ^ lw + 2 * 2 ^ (lw - 1))%nat).
          { rewrite <- HW. destruct NL; [lia|]. cbn [Nat.sub]. rewrite Nat.sub_0_r. lia. }
          assert (S2 : (K * 2 ^ lw = 2 * ((NL - 1) * 2 ^ lw) + 2 * 2 ^ (lw - 1))%nat) by (rewrite H at 1; rewrite <- HW; lia).
          rewrite (proj2 (Nat.ltb_lt _ _)) by lia. apply SUF. lia.
        * assert (S2 : (K * 2 ^ lw = 2 * ((NL - 1) * 2 ^ lw) + 2 * 2 ^ (lw - 1))%nat) by (rewrite H at 1; rewrite <- HW; lia).
          rewrite V by auto. rewrite (proj2 (Nat.ltb_lt _ _)) by lia. reflexivity.
      + rewrite V by auto. destruct (Nat.ltb_spec (2 * x) (K * 2 ^ lw)) as [A|A]; [reflexivity|].
        exfalso. destruct NLK as [N|N]; [nia|].
        assert (C1 : (0 <? K)%nat = true) by (apply Nat.ltb_lt; nia).
        assert (C2 : (K mod 2 =? 1)%nat = true).
        { apply Nat.eqb_eq. replace K with (1 + (NL - 1) * 2)%nat by nia. rewrite Nat.mod_add by lia. reflexivity. }
        rewrite C1, C2 in C. cbn [andb] in C. apply Nat.ltb_ge in C. assert (lw = 0)%nat by lia. subst lw. cbn [Nat.pow] in *. nia.
  Qed.

  Lemma fold_high_ok n v p k r tq m : length p = (n - S k)%nat -> (S k <= n)%nat ->
    rep HighToLow n v p (S k) m ->
    (match m with Transp _ _ _ _ => query_ok HighToLow (p ++ [r]) tq | _ => True end) ->
    exists m' b, fold_high_to_low lw mb junk (S k) r tq m = Ok (m', b) /\ rep HighToLow n v (p ++ [r]) k m' /\
      b = match m' with Transp _ _ _ _ => true | _ => false end /\
      match m, m' with
      | Transp _ sw _ _, Transp _ sw' _ _ => sw = S sw'
      | Transp _ sw _ _, Folded _ _ => sw = 0%nat
      | Folded _ _, Transp _ _ _ _ => False
      | _, _ => True
      end.
  Proof.
    intros Lp Hkn HR HQ. unfold fold_high_to_low.
    destruct m as [q sw suffix slen|evals suffix].
    - destruct HR as [PO [MU [SL [TV SV]]]]. destruct (Nat.eqb_spec sw 0) as [->|NZ].
      2:{ eexists _, _. split; [reflexivity|]. split; [repeat split; auto|]; try apply PO; try apply SV; auto. split; [reflexivity|]. lia. }
      destruct HQ as [tqq [c [-> HQ]]]. cbn [of_opt rbind pt] in *.
      pose proof (proj1 HQ) as QN. rewrite rev_length, app_length in QN. cbn [length] in QN.
      rewrite MU. rewrite (proj2 (Nat.ltb_ge _ _)) by lia.
      set (prefix := (2 ^ n - slen)%nat).
      assert (Lpr : length (rev (p ++ [r])) = (n - k)%nat) by (rewrite rev_length, app_length; cbn; lia).
      assert (QN' : q_nvars tqq = (n - k)%nat) by lia.
      assert (T' : forall b, length b = n -> mle (table (mp_mle q)) b = mle v b).
      { intros b Hb. apply mle_ext. intros x Hx. apply TV. now rewrite <- Hb. }
      destruct (Nat.ltb_spec prefix (2 ^ S k)) as [LP|LP].
      + set (sv := subcube_vars_for_bits lw mb (Nat.log2_up prefix) (q_nvars tqq) (S k - 1)).
        destruct (sv_bounds _ _ _ sv eq_refl) as [B1 B2]. replace (S k - 1)%nat with k in * by lia.
        rewrite QN'. replace (n - (n - k))%nat with k by lia.
        destruct (switchover_chunks_ok (subcube_partial_high_evals lw (mp_mle q) tqq sv) sv k (Nat.min prefix (2 ^ k)) suffix
                    (cur HighToLow v (p ++ [r]) k)) as [ev [E FR]]; auto; [lia| | |].
        * intros i Hi.
          destruct (subcube_partial_high_correct F (mp_lw q) lw c (mp_mle q) tqq (rev (p ++ [r])) sv i
                     (repeat 0 (2 ^ (sv - lw) * 2 ^ lw)) (2 ^ (sv - lw)) (proj1 PO) (proj1 (proj2 PO)) HQ (repeat_length _ _)) as [o [E [L [V _]]]].
          { rewrite Lpr, MU. split; [lia|]. split; [|reflexivity]. replace (n - (n - k) - sv)%nat with (k - sv)%nat by lia. auto. }
          exists o. split; auto. rewrite repeat_length in L. split; auto. intros s Hs. rewrite V by auto.
          rewrite Lpr, MU. replace (n - (n - k))%nat with k by lia. apply T'. rewrite app_length, vertex_length. lia.
        * intros x [H1 H2]. cbn [cur]. apply cur_suffix_high with (prefix := prefix); auto; [|lia].
          intros z Hz. apply SV. rewrite Lpr in Hz. replace (n - k + k)%nat with n in Hz by lia. unfold prefix in Hz. lia.
        * rewrite E. cbn [rbind]. eexists _, _. split; [reflexivity|]. split; [exact FR|]. auto.
      + pose proof (evaluate_partial_high_correct F (mp_same q) (mp_lw q) lw c (mp_mle q) tqq (rev (p ++ [r]))
                      (junk (2 ^ (n - q_nvars tqq - lw) * 2 ^ lw)) (proj1 PO) HQ) as P.
        rewrite Lpr, MU, QN', junk_length, (proj2 (Nat.leb_le _ _)) in P by lia.
        destruct P as [m' [E [W' [M' V]]]]; auto; [intros; now apply PO|].
        rewrite QN', E. cbn [rbind]. eexists _, _. split; [reflexivity|]. split; [|auto]. cbn [rep].
        replace (n - (n - k))%nat with k in M' by lia. rewrite M' in V.
        apply frep_full; [red in W'; now rewrite M' in W'|].
        intros x Hx. cbn [cur]. rewrite <- T' by (rewrite app_length, vertex_length; lia).
        rewrite <- V by (now rewrite vertex_length). now apply mle_on_cube.
    - destruct HR as [[K HK] HV]. pose proof (pow2_pos lw) as Pw.
      assert (E1 : (length evals / 2 ^ lw * 2 ^ lw = length evals)%nat) by (rewrite HK, Nat.div_mul by lia; reflexivity).
      rewrite E1.
      destruct (fold_left_lerp_inplace_correct F lw evals (Nat.min (length evals) (2 ^ S k)) suffix k r (cur HighToLow v p (S k)))
        as [o [E [[K' HK'] [P1 [P2 [P3 P4]]]]]].
      { split; [eauto|]. split; [lia|]. split; [lia|]. split.
        - intros x [H1 H2] H3. lia.
        - intros x Hx. rewrite HV by auto. unfold padded.
          destruct (Nat.ltb_spec x (length evals)), (Nat.ltb_spec x (Nat.min (length evals) (2 ^ S k))); auto; lia. }
      rewrite E. cbn [rbind]. eexists _, _. split; [reflexivity|]. split; [|auto]. cbn [rep].
      split; [eauto|]. intros x Hx. rewrite (cur_fold HighToLow) by auto. cbn [ix]. rewrite P4 by auto.
      unfold padded. destruct (Nat.ltb_spec x (Nat.min (Nat.min (length evals) (2 ^ S k)) (2 ^ k))) as [A|A].
      + rewrite (proj2 (Nat.ltb_lt _ _)) by lia. reflexivity.
      + destruct (Nat.ltb_spec x (length o)) as [B|B]; auto. symmetry. apply P3; auto.
  Qed.
End Proofs.
