(** The verifier's transform domains, and what the compute layers' fri_fold computes (C30, C52, C55). *)
Require Import Coq.NArith.NArith Coq.setoid_ring.Ring Coq.Arith.Arith Coq.Lists.List Coq.Bool.Bool Lia.
From Verif Require Import Base.Fld Base.Lists Base.Sums Base.Poly Base.NatBits Base.Chunks Field.Examples
  Math.MleSpec Math.UnivariateModel Math.MleModel Math.MleProofs Math.TensorProps
  Ntt.NttSpec Ntt.SubspaceTheory Ntt.TwiddleModel Ntt.TwiddleProps Ntt.NttModel Ntt.NttProofs Ntt.NttCompose Ntt.NttProps
  Code.RsModel Code.RsProps Code.FriFoldModel Code.FriFoldProps Fri.FriModel.
Import ListNotations.
Local Close Scope N_scope.
Local Open Scope nat_scope.

Section Domains.
  Variable F : field.
  Hypothesis H2 : char2 F.
  Local Open Scope fld_scope.
  Variable basis : list F.
  Hypothesis BI : lin_indep basis.
  Let d := length basis.

  (** The domain of a subcode is itself a basis fit for a transform... *)
  Lemma domain_indep n : (n <= d)%nat -> lin_indep (domain_basis basis n).
  Proof.
    intros L. apply lin_indep_iff. rewrite db_length.
    intros m Hm Q. apply (indep_gam F H2 basis BI n L m Hm). rewrite <- Q. symmetry. apply bsum_ext.
    intros i Hi. apply (db_bs F H2 basis). auto.
  Qed.
  Lemma domain_first n : (1 <= n <= d)%nat -> nth 0 (domain_basis basis n) 0 = 1.
  Proof.
    intros L. change (bs (domain_basis basis n) 0 = 1). rewrite (db_bs F H2 basis) by (unfold d in *; lia).
    now apply (gam_first F H2 basis BI).
  Qed.
  (** ... whose own smaller domains are those of the big one. *)
  Lemma domain_domain l n : (n <= l <= d)%nat -> domain_basis (domain_basis basis l) n = domain_basis basis n.
  Proof.
    intros L. destruct n as [|n]; [reflexivity|].
    assert (G : forall b : list F, domain_basis b (S n) = map (fun j => norm_vanishing b (length b - S n) (nth (length b - S n + j) b 0)) (seq 0 (S n))) by reflexivity.
    rewrite (G (domain_basis basis l)), (G basis). clear G. rewrite db_length. apply map_ext_in. intros j Hj. apply in_seq in Hj.
    change (nth ?k (domain_basis basis l) 0) with (bs (domain_basis basis l) k).
    change (nth ?k basis 0) with (bs basis k).
    rewrite (norm_vanishing_hat F H2) by (rewrite db_length; lia).
    rewrite (norm_vanishing_hat F H2) by (fold d; lia). fold d.
    rewrite (db_bs F H2 basis) by (fold d; lia).
    rewrite (hat_ext F _ (gam F basis l)) by (intros; apply (db_bs F H2 basis); fold d; lia).
    change (hat (gam F basis l) (l - S n) (gam F basis l (l - S n + j))) with (shifted (gam F basis l) (l - S n) j).
    change (hat (bs basis) (d - S n) (bs basis (d - S n + j))) with (shifted (bs basis) (d - S n) j).
    unfold gam. fold d. rewrite (shifted_shifted F H2 (bs basis) (d - l) (l - S n) l) by (try lia; replace (d - l + l)%nat with d by lia; exact BI).
    f_equal. lia.
  Qed.

  Lemma subdomain_tables l : (1 <= l <= d)%nat -> exists ts, otf_generate (domain_basis basis l) = Ok ts /\ tables F (domain_basis basis l) ts.
  Proof.
    intros L. destruct (twiddle_tables_exist F H2 (domain_basis basis l)) as (ts & tp & E & _).
    - apply domain_indep. lia.
    - now apply domain_first.
    - exists ts. split; auto. now left.
  Qed.
End Domains.

(* ------------------------------------------------------------------ *)
Section Fold.
  Variable F : field.
  Hypothesis H2 : char2 F.
  Local Open Scope fld_scope.
  Add Ring Fring : (f_ring F).
  Variable basis : list F.
  Hypothesis BI : lin_indep basis.
  Hypothesis B1 : nth 0 basis 0 = 1.
  Variable ts : list (twiddle F).
  Hypothesis HT : tables F basis ts.

  Lemma lerp_round_ok k c (vals : list F) : (2 ^ S k <= length vals)%nat ->
    exists vals', lerp_round (2 ^ S k) vals c = Some vals' /\ length vals' = length vals /\
      forall o, (o < 2 ^ k)%nat -> nth o vals' 0 = (1 - c) * nth (2 * o) vals 0 + c * nth (2 * o + 1) vals 0.
  Proof.
    intros LV. unfold lerp_round. pose proof (pow2_S k) as PW.
    replace (2 ^ S k / 2)%nat with (2 ^ k)%nat by (apply Nat.div_unique_exact; lia).
    set (G := fun o => (1 - c) * nth (2 * o) vals 0 + c * nth (2 * o + 1) vals 0).
    assert (IH : forall q, (q <= 2 ^ k)%nat -> exists s,
      ofold (fun values o => do a <- nth_error values (o * 2); do b <- nth_error values (o * 2 + 1);
        Some (upd values o (extrapolate_line a b c))) (seq 0 q) vals = Some s /\
      length s = length vals /\ forall v, (v < length vals)%nat -> nth v s 0 = if (v <? q)%nat then G v else nth v vals 0).
    { induction q as [|q IH]; intros Hq.
      - exists vals. auto.
      - destruct IH as [s [E [LS N]]]; [lia|]. rewrite seq_S, ofold_app, E. cbn [obind ofold Nat.add].
        rewrite (nth_error_nth_eq s _ 0) by lia. cbn [obind].
        rewrite (nth_error_nth_eq s _ 0) by lia. cbn [obind].
        rewrite !N by lia. rewrite !(proj2 (Nat.ltb_ge _ q)) by lia.
        eexists. split; [reflexivity|]. split; [now rewrite upd_length|]. intros v Hv.
        rewrite upd_nth, LS, (proj2 (Nat.ltb_lt q (length vals))) by lia. rewrite andb_true_r.
        destruct (Nat.eqb_spec v q) as [->|NE].
        + rewrite (proj2 (Nat.ltb_lt q (S q))) by lia. unfold G, extrapolate_line.
          replace (q * 2)%nat with (2 * q)%nat by lia. ring.
        + rewrite N by auto. destruct (Nat.ltb_spec v q), (Nat.ltb_spec v (S q)); auto; lia. }
    destruct (IH (2 ^ k)%nat (le_n _)) as [s [E [LS N]]]. exists s. split; auto. split; auto.
    intros v Hv. rewrite N by lia. now rewrite (proj2 (Nat.ltb_lt _ _)).
  Qed.

  Lemma lerp_rounds_ok cs : forall k (vals : list F), (2 ^ (length cs + k) <= length vals)%nat ->
    exists vals', lerp_rounds (2 ^ (length cs + k)) vals cs = Some vals' /\ length vals' = length vals /\
      forall o, (o < 2 ^ k)%nat -> nth o vals' 0 = mle (fun p => nth (o * 2 ^ length cs + p) vals 0) cs.
  Proof.
    induction cs as [|c cs IH]; intros k vals LV.
    - exists vals. cbn [lerp_rounds length]. split; auto. split; auto. intros o Ho. rewrite mle_nil. f_equal. rewrite Nat.pow_0_r. lia.
    - cbn [length Nat.add] in *. cbn [lerp_rounds]. destruct (lerp_round_ok (length cs + k) c vals LV) as (v1 & E1 & L1 & N1).
      rewrite E1. cbn [obind]. pose proof (pow2_S (length cs + k)) as PW.
      replace (2 ^ S (length cs + k) / 2)%nat with (2 ^ (length cs + k))%nat by (apply Nat.div_unique_exact; lia).
      destruct (IH k v1) as (v2 & E2 & L2 & N2); [lia|]. exists v2. split; auto. split; [lia|].
      intros o Ho. rewrite N2 by auto. rewrite mle_cons. apply mle_ext. intros p Hp.
      rewrite N1.
      + rewrite Nat.pow_succ_r'. f_equal; f_equal; f_equal; lia.
      + rewrite Nat.add_comm. rewrite (Nat.add_comm (length cs)). rewrite Nat.add_comm. rewrite (Nat.add_comm k). now apply mix_lt.
  Qed.

  (** What folding with the challenges means for an interleaved codeword: [msg (j * 2^lbs + x)] is
      coefficient [j] of the [x]-th interleaved message. *)
  Definition interleaved_codeword (n m lbs : nat) (msg : nat -> F) (codeword : list F) : Prop :=
    length codeword = (2 ^ (n + lbs))%nat /\
    forall y x, (y < 2 ^ n)%nat -> (x < 2 ^ lbs)%nat ->
      nth (y * 2 ^ lbs + x) codeword 0 =
      novel_poly (domain_basis basis n) m (fun j => msg (j * 2 ^ lbs + x)%nat) (elem (domain_basis basis n) y).
  Definition folded_codeword (n m lbs : nat) (msg : nat -> F) (challenges : list F) : list F :=
    let k := (length challenges - lbs)%nat in
    let D' := domain_basis basis (n - k) in
    map (fun y => novel_poly D' (m - k) (fun j => mle (fun p => msg (j * 2 ^ length challenges + p)%nat) challenges) (elem D' y))
        (seq 0 (2 ^ (n - k))).

  Lemma cpu_fold_one_correct n m lbs msg ci (chunk challenges : list F) :
    let k := (length challenges - lbs)%nat in
    (n <= length basis)%nat -> (lbs <= length challenges)%nat -> (k <= m <= n)%nat -> (ci < 2 ^ (n - k))%nat ->
    length chunk = (2 ^ length challenges)%nat ->
    (forall v x, (v < 2 ^ k)%nat -> (x < 2 ^ lbs)%nat ->
       nth (v * 2 ^ lbs + x) chunk 0 = novel_poly (domain_basis basis n) m (fun j => msg (j * 2 ^ lbs + x)%nat) (elem (domain_basis basis n) (ci * 2 ^ k + v))) ->
    cpu_fold_one ts n lbs ci chunk challenges =
    Some (novel_poly (domain_basis basis (n - k)) (m - k) (fun j => mle (fun p => msg (j * 2 ^ length challenges + p)%nat) challenges)
            (elem (domain_basis basis (n - k)) ci)).
  Proof.
    intros k L LB Lm Hc LC HV. unfold cpu_fold_one. cbv zeta.
    set (ic := firstn lbs challenges). set (rs := skipn lbs challenges).
    assert (LI : length ic = lbs) by (unfold ic; rewrite firstn_length; lia).
    assert (LR : length rs = k) by (unfold rs; rewrite skipn_length; reflexivity).
    assert (AP : ic ++ rs = challenges) by apply firstn_skipn.
    destruct (lerp_rounds_ok ic k chunk) as (v1 & E1 & L1 & N1).
    { rewrite LC, LI. apply pow2_le. unfold k. lia. }
    replace (length ic + k)%nat with (length challenges) in E1 by (rewrite LI; unfold k; lia). rewrite E1. cbn [obind].
    destruct (fold_rounds_ok F H2 basis BI B1 ts HT rs n m (fun j => mle (fun x => msg (j * 2 ^ lbs + x)%nat) ic) ci v1) as (v2 & E2 & L2 & N2); auto.
    - rewrite LR. exact Lm.
    - rewrite LR. exact Hc.
    - rewrite L1, LC, LR. apply pow2_le. unfold k. lia.
    - rewrite LR. intros v Hv. rewrite N1 by auto. rewrite novel_poly_mle. rewrite LI. apply mle_ext. intros x Hx. rewrite LI in Hx. now apply HV.
    - rewrite E2. cbn [obind]. rewrite (nth_error_nth_eq v2 0 0) by auto. rewrite N2, LR. f_equal.
      apply novel_poly_ext. intros j Hj. transitivity (mle (fun p => msg (j * 2 ^ length challenges + p)%nat) (ic ++ rs)); [|now rewrite AP]. rewrite mle_app_low. apply mle_ext. intros p Hp. apply mle_ext. intros x Hx.
      f_equal. rewrite LI. replace (length challenges) with (k + lbs)%nat by (unfold k; lia). rewrite Nat.pow_add_r. lia.
  Qed.

  (** C30/C52: fri_fold of the reference compute layer. *)
  Theorem cpu_fri_fold_correct n m lbs msg (challenges codeword out : list F) :
    let k := (length challenges - lbs)%nat in
    (n <= length basis)%nat -> (lbs <= length challenges)%nat -> (k <= m <= n)%nat ->
    interleaved_codeword n m lbs msg codeword -> length out = (2 ^ (n - k))%nat ->
    cpu_fri_fold ts n lbs challenges codeword out = Ok (folded_codeword n m lbs msg challenges).
  Proof.
    intros k L LB Lm [LC HV] LO. unfold cpu_fri_fold. fold k. rewrite LC, Nat.eqb_refl. cbn [negb].
    rewrite (proj2 (Nat.ltb_ge _ _)) by auto. rewrite (proj2 (Nat.ltb_ge (lbs + n) _)) by (unfold k in *; lia).
    rewrite LO, Nat.eqb_refl. cbn [negb]. cbv zeta.
    set (q := length challenges). set (N := (2 ^ (n - k))%nat).
    assert (LQ : length codeword = (N * 2 ^ q)%nat) by (rewrite LC; unfold N; rewrite <- Nat.pow_add_r; f_equal; unfold k, q in *; lia).
    pose proof (pow2_pos q) as PQ.
    set (ch := fun i => firstn (2 ^ q) (skipn (i * 2 ^ q) codeword)).
    assert (CH : Chunks.chunks (2 ^ q) codeword = map ch (seq 0 N)).
    { apply nth_error_ext. intros i. rewrite Chunks.chunks_nth_error by auto. rewrite LQ.
      destruct (Nat.ltb_spec (i * 2 ^ q) (N * 2 ^ q)) as [I|I].
      - rewrite nth_error_map, nth_error_seq. assert (i < N)%nat by nia. rewrite (proj2 (Nat.ltb_lt _ _)) by auto. reflexivity.
      - rewrite nth_error_map, nth_error_seq. rewrite (proj2 (Nat.ltb_ge i N)) by nia. reflexivity. }
    rewrite CH, map_length, seq_length.
    assert (CB : combine (seq 0 N) (map ch (seq 0 N)) = map (fun i => (i, ch i)) (seq 0 N)).
    { generalize (seq 0 N). intros l. induction l as [|a l IH]; cbn; [reflexivity|]. now rewrite IH. }
    rewrite CB, firstn_all2 by (rewrite map_length, seq_length; lia).
    unfold folded_codeword. fold k. fold q. cbv zeta.
    set (R := fun y => novel_poly _ _ _ (elem _ y)). fold N.
    assert (G : forall l, (forall i, In i l -> (i < N)%nat) ->
      omap (fun '(i, chunk) => cpu_fold_one ts n lbs i chunk challenges) (map (fun i => (i, ch i)) l) = Some (map R l)).
    { induction l as [|i l IH]; intros Hl; [reflexivity|]. cbn [map omap].
      assert (Hi : (i < 2 ^ (n - k))%nat) by (apply Hl; now left).
      rewrite (cpu_fold_one_correct n m lbs msg i (ch i) challenges); auto.
      - cbn [obind]. rewrite IH by (intros; apply Hl; now right). reflexivity.
      - fold q. unfold ch. rewrite firstn_length, skipn_length, LQ. fold N in Hi. nia.
      - fold k. intros v x Hv Hx. unfold ch.
        assert (QK : q = (k + lbs)%nat) by (unfold k, q in *; lia).
        assert (VX : (v * 2 ^ lbs + x < 2 ^ q)%nat) by (rewrite QK, (Nat.add_comm k); now apply mix_lt).
        rewrite nth_firstn_lt by auto. rewrite nth_skipn'.
        replace (i * 2 ^ q + (v * 2 ^ lbs + x))%nat with ((i * 2 ^ k + v) * 2 ^ lbs + x)%nat by (rewrite QK, Nat.pow_add_r; lia).
        apply HV; auto. replace n with (k + (n - k))%nat by lia. now apply mix_lt. }
    rewrite G; [reflexivity|]. intros i Hi. apply in_seq in Hi. lia.
  Qed.

  (** The same for the optimized layer when its packed elements can be viewed as scalars and are no wider
      than the folded chunks. *)
  Theorem fast_fri_fold_correct n m lbs msg lw stale (challenges codeword : list F) :
    let k := (length challenges - lbs)%nat in
    (n <= length basis)%nat -> (lbs <= length challenges)%nat -> (k <= m <= n)%nat ->
    (lw <= length challenges)%nat -> (lbs = 0 \/ lw <= lbs)%nat -> (forall i, (2 ^ k <= length (stale i))%nat) ->
    interleaved_codeword n m lbs msg codeword ->
    fast_fri_fold true lw ts stale n lbs challenges codeword (repeat 0 (2 ^ (n - k))) = Ok (folded_codeword n m lbs msg challenges).
  Proof.
    intros k L LB Lm LW LWB LS [LC HV]. unfold fast_fri_fold.
    pose proof (fold_interleaved_correct F H2 basis BI B1 ts HT lw n m lbs msg codeword challenges stale L LB LW LWB Lm LS LC HV) as E.
    unfold fold_interleaved in E. fold k in E. unfold k in E |- *. now rewrite E.
  Qed.
End Fold.

(** Otherwise it takes the output buffer for the codeword, and panics whenever anything is folded. *)
Theorem fast_fri_fold_packed_refuted (F : field) ts lw stale n lbs (challenges codeword out : list F) :
  challenges <> [] -> length out = 2 ^ (n - (length challenges - lbs)) -> lw <= n - (length challenges - lbs) ->
  fast_fri_fold false lw ts stale n lbs challenges codeword out = Panic.
Proof.
  intros NE LO LW. unfold fast_fri_fold. destruct (Nat.ltb_spec (length challenges) lbs) as [|A]; [reflexivity|].
  destruct (Nat.ltb_spec n (length challenges - lbs)) as [|B]; [reflexivity|].
  unfold fold_interleaved_allocated. rewrite LO.
  destruct (Nat.eqb_spec (2 ^ (n - (length challenges - lbs))) (2 ^ (n + lbs - lw) * 2 ^ lw)) as [E|E]; [|reflexivity].
  exfalso. rewrite <- Nat.pow_add_r in E. apply Nat.pow_inj_r in E; [|lia].
  destruct challenges; [easy|]. cbn [length] in *. lia.
Qed.
