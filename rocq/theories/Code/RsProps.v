(** C29: Reed–Solomon encoding. *)
Require Import Coq.NArith.NArith Coq.setoid_ring.Ring Coq.Arith.Arith Coq.Lists.List Coq.Bool.Bool Lia.
From Verif Require Import Base.Fld Base.Lists Base.Sums Base.Poly Base.NatBits Field.Examples Ntt.NttSpec Ntt.SubspaceTheory
  Ntt.TwiddleModel Ntt.NttModel Ntt.NttProofs Ntt.NttCompose Ntt.NttProps Code.RsModel.
Import ListNotations.
Local Close Scope N_scope.
Local Open Scope nat_scope.

Section Novel.
  Variable F : field.
  Hypothesis H2 : char2 F.
  Local Open Scope fld_scope.
  Add Ring Fring : (f_ring F).

  (** ** The novel basis is a basis of the polynomials of degree below [2^n] *)
  Lemma novel_poly_S (B : list F) n c x : novel_poly B (S n) c x =
    novel_poly B n c x + norm_vanishing B n x * novel_poly B n (fun j => c (j + 2 ^ n)%nat) x.
  Proof.
    unfold novel_poly. rewrite pow2_S, sumn_split. f_equal.
    - apply sumn_ext. intros j Hj. f_equal. unfold novel. rewrite prodn_S. rewrite (bit_above j n n) by auto.
      ring.
    - rewrite <- sumn_scale. apply sumn_ext. intros j Hj. rewrite (Nat.add_comm (2 ^ n) j).
      unfold novel. rewrite prodn_S.
      assert (B1 : Nat.testbit (j + 2 ^ n) n = true).
      { replace (j + 2 ^ n)%nat with (1 * 2 ^ n + j)%nat by lia. rewrite mix_bit_hi, Nat.sub_diag by auto. reflexivity. }
      rewrite B1. rewrite (prodn_ext F n _ (fun i => if Nat.testbit j i then norm_vanishing B i x else 1)).
      + ring.
      + intros i Hi. replace (j + 2 ^ n)%nat with (1 * 2 ^ n + j)%nat by lia. now rewrite mix_bit_lo by auto.
  Qed.

  Lemma norm_vanishing_poly (B : list F) i : is_poly (S (2 ^ i)) (norm_vanishing B i).
  Proof.
    unfold norm_vanishing, vanishing.
    apply (is_poly_ext F _ _ (fun x => finv (prodn (2 ^ i) (fun m => nth i B 0 - elem (firstn i B) m)) * prodn (2 ^ i) (fun m => x - elem (firstn i B) m))).
    { intros x. ring. }
    apply is_poly_scale. apply is_poly_prodn. intros m _.
    apply (is_poly_ext F _ _ (fun x => - elem (firstn i B) m + 1 * x)); [intros; ring|]. apply is_poly_affine.
  Qed.

  Theorem novel_poly_is_poly (B : list F) n c : is_poly (2 ^ n) (novel_poly B n c).
  Proof.
    revert c. induction n as [|n IH]; intros c.
    - apply (is_poly_ext F _ _ (fun _ => c 0%nat)); [|apply is_poly_const].
      intros x. unfold novel_poly. change (2 ^ 0)%nat with 1%nat. rewrite sumn_1. unfold novel. rewrite prodn_0. ring.
    - apply (is_poly_ext F _ _ (fun x => novel_poly B n c x + norm_vanishing B n x * novel_poly B n (fun j => c (j + 2 ^ n)%nat) x)).
      { intros x. apply novel_poly_S. }
      pose proof (pow2_S n) as PW. pose proof (pow2_pos n) as PP.
      apply is_poly_add; [apply (is_poly_le F (2 ^ n)); [lia|apply IH]|].
      replace (2 ^ S n)%nat with (S (2 ^ n + (2 ^ n - 1)))%nat by lia. apply is_poly_mul; [apply norm_vanishing_poly|].
      replace (S (2 ^ n - 1)) with (2 ^ n)%nat by lia. apply IH.
  Qed.

  Lemma novel_poly_add (B : list F) n c c' x : novel_poly B n (fun j => c j + c' j) x = novel_poly B n c x + novel_poly B n c' x.
  Proof. unfold novel_poly. rewrite <- sumn_add. apply sumn_ext. intros. ring. Qed.
  Lemma novel_poly_scale (B : list F) n k c x : novel_poly B n (fun j => k * c j) x = k * novel_poly B n c x.
  Proof. unfold novel_poly. rewrite <- sumn_scale. apply sumn_ext. intros. ring. Qed.
  Lemma novel_poly_ext (B : list F) n c c' x : (forall j, (j < 2 ^ n)%nat -> c j = c' j) -> novel_poly B n c x = novel_poly B n c' x.
  Proof. intros H. unfold novel_poly. apply sumn_ext. intros j Hj. now rewrite H. Qed.

  (** Vanishing on a coset of the span of the first [n] elements forces the coefficients to vanish. *)
  Lemma novel_zero (B : list F) (BI : lin_indep B) n : (n <= length B)%nat -> forall c s,
    (forall y, (y < 2 ^ n)%nat -> novel_poly B n c (elem B y + s) = 0) -> forall j, (j < 2 ^ n)%nat -> c j = 0.
  Proof.
    apply lin_indep_iff in BI.
    induction n as [|n IH]; intros L c s H j Hj.
    - change (2 ^ 0)%nat with 1%nat in *. specialize (H 0%nat Nat.lt_0_1). unfold novel_poly in H. change (2 ^ 0)%nat with 1%nat in H.
      rewrite sumn_1 in H. unfold novel in H. rewrite prodn_0 in H. replace j with 0%nat by lia. rewrite <- H. ring.
    - pose proof (pow2_S n) as PW. set (u := hat (bs B) n s).
      assert (HV : forall x, norm_vanishing B n x = hat (bs B) n x) by (intros x; apply norm_vanishing_hat; auto; lia).
      assert (EH : forall y, (y < 2 ^ S n)%nat -> hat (bs B) n (elem B y) = if Nat.testbit y n then 1 else 0).
      { intros y Hy. rewrite elem_bsum.
        assert (Hy' : (y < 2 ^ length B)%nat) by (apply (Nat.lt_le_trans _ _ _ Hy), pow2_le; lia).
        rewrite (hat_index F H2 (bs B) (length B) n) by (auto; lia).
        rewrite (Nat.div_small y (2 ^ S n)) by auto. rewrite bsum_0. ring. }
      assert (LO : forall k, (k < 2 ^ n)%nat -> c k + u * c (k + 2 ^ n)%nat = 0).
      { apply (IH ltac:(lia) (fun k => c k + u * c (k + 2 ^ n)%nat) s). intros y Hy.
        rewrite novel_poly_add, novel_poly_scale. rewrite <- (H y) by lia. rewrite novel_poly_S, HV, hat_add, EH by (auto; lia).
        rewrite (bit_above y n n) by auto. fold u. ring. }
      assert (HI : forall k, (k < 2 ^ n)%nat -> c k + (u + 1) * c (k + 2 ^ n)%nat = 0).
      { apply (IH ltac:(lia) (fun k => c k + (u + 1) * c (k + 2 ^ n)%nat) (elem B (2 ^ n) + s)). intros y Hy.
        rewrite novel_poly_add, novel_poly_scale.
        assert (EY : elem B y + (elem B (2 ^ n) + s) = elem B (y + 2 ^ n) + s).
        { rewrite !elem_bsum.
          replace (y + 2 ^ n)%nat with (1 * 2 ^ n + y)%nat by lia. replace (2 ^ n)%nat with (1 * 2 ^ n + 0)%nat at 1 by lia.
          replace (length B) with (n + (length B - n))%nat by lia. rewrite !bsum_split by (auto; apply pow2_pos).
          change y with (0 * 2 ^ n + y)%nat at 1. rewrite bsum_split by auto. rewrite !bsum_0. ring. }
        rewrite EY. rewrite <- (H (y + 2 ^ n)%nat) by lia. rewrite novel_poly_S, HV, hat_add, EH by (auto; lia).
        replace (Nat.testbit (y + 2 ^ n) n) with true.
        2:{ symmetry. replace (y + 2 ^ n)%nat with (1 * 2 ^ n + y)%nat by lia. rewrite mix_bit_hi, Nat.sub_diag by auto. reflexivity. }
        fold u. ring. }
      assert (CH : forall k, (k < 2 ^ n)%nat -> c (k + 2 ^ n)%nat = 0).
      { intros k Hk. replace (c (k + 2 ^ n)%nat) with ((c k + (u + 1) * c (k + 2 ^ n)%nat) - (c k + u * c (k + 2 ^ n)%nat)) by ring.
        rewrite LO, HI by auto. ring. }
      destruct (Nat.lt_ge_cases j (2 ^ n)) as [Lj|Lj].
      + replace (c j) with ((c j + u * c (j + 2 ^ n)%nat) - u * c (j + 2 ^ n)%nat) by ring. rewrite LO, CH by auto. ring.
      + replace j with ((j - 2 ^ n) + 2 ^ n)%nat by lia. apply CH. lia.
  Qed.

  (** Two polynomials agreeing at [2^n] points of the domain have the same coefficients. *)
  Theorem novel_poly_unique (B : list F) n c c' ys : lin_indep B -> (n <= length B)%nat ->
    NoDup ys -> (forall y, In y ys -> (y < 2 ^ length B)%nat) -> (2 ^ n <= length ys)%nat ->
    (forall y, In y ys -> novel_poly B n c (elem B y) = novel_poly B n c' (elem B y)) ->
    forall j, (j < 2 ^ n)%nat -> c j = c' j.
  Proof.
    intros BI L ND HB LY H j Hj. apply fsub_eq0.
    apply (novel_zero B BI n L (fun j => c j - c' j) 0); auto. intros y Hy.
    assert (G : forall x, novel_poly B n c x = novel_poly B n c' x).
    { apply (is_poly_unique F (2 ^ n) _ _ (map (elem B) ys)); auto using novel_poly_is_poly.
      - apply NoDup_map_in; auto. intros a b Ha Hb E. apply (elem_inj F H2 B); auto.
      - now rewrite map_length.
      - intros r Hr. apply in_map_iff in Hr. destruct Hr as [y' [<- Hy']]. auto. }
    rewrite (novel_poly_ext B n _ (fun j => c j + (- (1)) * c' j)) by (intros; ring).
    rewrite novel_poly_add, novel_poly_scale, G. ring.
  Qed.
End Novel.

Section Props.
  Variable F : field.
  Hypothesis H2 : char2 F.
  Local Open Scope fld_scope.
  Add Ring Fring : (f_ring F).
  Variable basis : list F.
  Hypothesis BI : lin_indep basis.
  Hypothesis B1 : nth 0 basis 0 = 1.
  Variable ts : list (twiddle F).
  Hypothesis HT : tables F basis ts.

  Lemma list_eqb_spec (a b : list F) : list_eqb a b = true <-> a = b.
  Proof.
    revert b. induction a as [|x a IH]; intros [|y b]; cbn; try (split; congruence).
    rewrite andb_true_iff, IH. split.
    - intros [E ->]. destruct (feqb_spec F x y); congruence.
    - intros E. inversion E; subst. split; auto. apply feqb_refl.
  Qed.

  (** The code constructed for an NTT has the NTT's evaluation domain of its length. *)
  Theorem rs_new_correct ld lr : (1 <= ld + lr)%nat ->
    with_ntt_subspace ts ld lr = if (length basis <? ld + lr)%nat then Err else Ok (mkRs (domain_basis basis (ld + lr)) ld lr).
  Proof.
    intros L. unfold with_ntt_subspace. rewrite (tables_length F H2 basis BI B1 ts HT).
    destruct (Nat.ltb_spec (length basis) (ld + lr)) as [Q|Q]; auto.
    rewrite (ntt_subspace_correct F H2 basis BI B1 ts HT) by lia. cbn [of_opt rbind]. unfold with_subspace.
    assert (length (domain_basis basis (ld + lr)) = ld + lr)%nat as -> by (unfold domain_basis; now rewrite map_length, seq_length).
    now rewrite Nat.eqb_refl.
  Qed.

  Lemma concat_repeat_nth {A} (l : list A) n cs i (dflt : A) : length l = cs -> (i < n * cs)%nat ->
    nth i (concat (repeat l n)) dflt = nth (i mod cs) l dflt.
  Proof.
    intros L. revert i. induction n as [|n IH]; intros i Hi; [lia|]. cbn [repeat concat].
    assert (C : cs <> 0%nat) by nia.
    destruct (Nat.lt_ge_cases i cs) as [Q|Q].
    - rewrite app_nth1 by lia. now rewrite Nat.mod_small.
    - rewrite app_nth2 by lia. rewrite L, IH by nia. f_equal.
      replace i with ((i - cs) + 1 * cs)%nat at 2 by lia. now rewrite Nat.mod_add by auto.
  Qed.

  Lemma concat_repeat_length {A} (l : list A) n : length (concat (repeat l n)) = (n * length l)%nat.
  Proof. induction n as [|n IH]; [reflexivity|]. cbn [repeat concat]. rewrite app_length, IH. lia. Qed.

  Lemma concat_repeat_in {A} (l : list A) n x : In x (concat (repeat l n)) -> In x l.
  Proof. induction n as [|n IH]; cbn; [easy|]. rewrite in_app_iff. tauto. Qed.

  (** The buffer after the repetition holds the message periodically. *)
  Lemma fill_spec lw ld lbs ll (code code1 : list (list F)) : (ld + lbs <= ll)%nat -> well_packed lw code -> length code = (2 ^ (ll - lw))%nat ->
    ((lw <= ld + lbs /\ code1 = code) \/
     (ld + lbs < lw /\ code1 = upd code 0 (cycle_fill lw (2 ^ (ld + lbs)) (nth 0 code []))))%nat ->
    exists code2, repeat_chunk (2 ^ (ld + lbs - lw)) code1 = Some code2 /\ length code2 = length code /\ well_packed lw code2 /\
      forall p, (p < 2 ^ ll)%nat -> scalar_at lw code2 p = scalar_at lw code (p mod 2 ^ (ld + lbs)).
  Proof.
    intros LL WP LC HC. set (m := (ld + lbs)%nat) in *. set (cs := (2 ^ (m - lw))%nat).
    assert (CP : (0 < cs)%nat) by apply pow2_pos.
    assert (L1 : length code1 = length code) by (destruct HC as [[_ ->]|[_ ->]]; [auto|apply upd_length]).
    assert (LE : length code1 = (2 ^ (ll - lw - (m - lw)) * cs)%nat).
    { rewrite L1, LC. unfold cs. rewrite <- Nat.pow_add_r. f_equal. lia. }
    unfold repeat_chunk. rewrite LE, Nat.mod_mul by lia. rewrite Nat.eqb_refl, Nat.div_mul by lia.
    eexists. split; [reflexivity|].
    assert (LF : length (firstn cs code1) = cs).
    { rewrite firstn_length, LE. pose proof (pow2_pos (ll - lw - (m - lw))). nia. }
    rewrite concat_repeat_length, LF. split; [congruence|]. split.
    - intros q Hq. apply concat_repeat_in in Hq.
      assert (Hq' : In q code1) by (rewrite <- (firstn_skipn cs code1); apply in_app_iff; auto).
      destruct HC as [[_ ->]|[_ ->]]; auto.
      apply (In_nth _ _ []) in Hq'. destruct Hq' as [k [Hk E]]. destruct (Nat.eq_dec k 0) as [->|N].
      + rewrite nth_upd_eq in E by (rewrite upd_length in Hk; lia). subst q. unfold cycle_fill. now rewrite map_length, seq_length.
      + rewrite nth_upd_ne in E by auto. subst q. apply WP. apply nth_In. rewrite upd_length in Hk. auto.
    - intros p Hp. unfold scalar_at at 1.
      assert (PD : (p / 2 ^ lw < 2 ^ (ll - lw - (m - lw)) * cs)%nat).
      { rewrite <- LE, L1, LC. destruct (Nat.le_gt_cases lw ll) as [Q|Q].
        - apply div_lt. now replace (lw + (ll - lw))%nat with ll by lia.
        - rewrite Nat.div_small; [apply pow2_pos|]. apply (Nat.lt_le_trans _ _ _ Hp). apply pow2_le. lia. }
      rewrite (concat_repeat_nth _ _ cs) by auto.
      assert (NF : forall i, (i < cs)%nat -> nth i (firstn cs code1) [] = nth i code1 []).
      { intros i Hi. rewrite <- (firstn_skipn cs code1) at 2. now rewrite app_nth1 by lia. }
      rewrite NF by (apply Nat.mod_upper_bound; lia).
      destruct HC as [[Lw ->]|[Lw ->]].
      + unfold scalar_at. unfold cs. replace m with (lw + (m - lw))%nat at 2 3 by lia. rewrite mod_split.
        rewrite mix_div by apply mod_lt. rewrite mix_mod by apply mod_lt. reflexivity.
      + assert (cs = 1)%nat as -> by (unfold cs; replace (m - lw)%nat with 0%nat by lia; reflexivity).
        rewrite Nat.mod_1_r. rewrite nth_upd_eq by (rewrite LC; apply pow2_pos). unfold cycle_fill.
        rewrite nth_map_seq by apply mod_lt. unfold scalar_at.
        assert (ML : (p mod 2 ^ m < 2 ^ lw)%nat).
        { apply (Nat.lt_le_trans _ (2 ^ m)); [apply mod_lt|]. apply pow2_le. lia. }
        rewrite (Nat.div_small (p mod 2 ^ m)), (Nat.mod_small (p mod 2 ^ m)) by auto. f_equal.
        rewrite (mix_dm p lw) at 2. symmetry. apply mix_mod_lo. lia.
  Qed.

  Lemma fill_general lw ld lbs ll (code : list (list F)) : (ld + lbs <= ll)%nat -> well_packed lw code -> length code = (2 ^ (ll - lw))%nat ->
    (lw <= ld + lbs \/ 2 ^ ld + lbs < lw)%nat ->
    exists code1 code2,
      (if (2 ^ ld + lbs <? lw)%nat then
         of_opt (do p <- nth_error code 0; Some (upd code 0 (cycle_fill lw (2 ^ (ld + lbs)) p)))
       else Ok code) = Ok code1 /\
      repeat_chunk (2 ^ (ld + lbs - lw)) code1 = Some code2 /\ length code2 = length code /\ well_packed lw code2 /\
      forall p, (p < 2 ^ ll)%nat -> scalar_at lw code2 p = scalar_at lw code (p mod 2 ^ (ld + lbs)).
  Proof.
    intros LL WP LC HC.
    assert (P0 : (ld < 2 ^ ld)%nat) by (apply Nat.pow_gt_lin_r; lia).
    destruct (Nat.ltb_spec (2 ^ ld + lbs) lw) as [Q|Q].
    - assert (LC0 : (0 < length code)%nat) by (rewrite LC; apply pow2_pos).
      rewrite (nth_error_nth_eq code 0 []) by auto. cbn [obind of_opt].
      destruct (fill_spec lw ld lbs ll code (upd code 0 (cycle_fill lw (2 ^ (ld + lbs)) (nth 0 code [])))) as [code2 HH]; auto.
      { right. split; [lia|reflexivity]. }
      exists (upd code 0 (cycle_fill lw (2 ^ (ld + lbs)) (nth 0 code []))), code2. split; auto.
    - destruct (fill_spec lw ld lbs ll code code) as [code2 HH]; auto.
      { left. split; [lia|reflexivity]. }
      exists code, code2. split; auto.
  Qed.

  (** C29, encoding: the buffer holds in its first [2^(log_dim + log_batch)] scalars the interleaved
      messages (message [x] has its coefficient [j] at position [j * 2^log_batch + x]); encoding fills it
      with the interleaved evaluations of the message polynomials over the whole domain. *)
  Theorem rs_encode_correct lw ld lr lbs code : (1 <= ld + lr <= length basis)%nat -> well_packed lw code ->
    length code = (2 ^ (ld + lr + lbs - lw))%nat ->
    (lw <= ld + lbs \/ 2 ^ ld + lbs < lw)%nat ->
    let D := domain_basis basis (ld + lr) in
    exists out, encode_batch_inplace lw ts (mkRs D ld lr) code lbs = Ok out /\ length out = length code /\ well_packed lw out /\
      forall y x, (y < 2 ^ (ld + lr))%nat -> (x < 2 ^ lbs)%nat ->
        scalar_at lw out (y * 2 ^ lbs + x) =
        novel_poly D ld (fun j => scalar_at lw code (j * 2 ^ lbs + x)) (elem D y).
  Proof.
    intros [L1 L2] WP LC HW. cbv zeta. unfold encode_batch_inplace, rs_log_len, rs_dim. cbn [rs_subspace rs_log_dim rs_log_inv_rate].
    rewrite (ntt_subspace_correct F H2 basis BI B1 ts HT) by lia. cbn [of_opt rbind].
    rewrite (proj2 (list_eqb_spec _ _) eq_refl). cbn [negb]. rewrite LC, Nat.eqb_refl. cbn [negb].
    destruct (fill_general lw ld lbs (ld + lr + lbs) code) as [code1 [code2 [E1 [E2 [LC2 [WP2 HS]]]]]]; auto; [lia|].
    rewrite E1. cbn [rbind]. rewrite E2. cbn [of_opt rbind].
    destruct (ntt_forward_evaluates F H2 basis BI B1 ts HT lw code2 (mkShape lbs (ld + lr) 0) 0 0 lr) as [out [EO [LO [WO HO]]]]; auto.
    { constructor; cbn [log_x log_y log_z]; try lia.
      - cbn. lia.
      - exists (ld + lr + lbs - lw)%nat. split; [congruence|]. lia. }
    exists out. split; [exact EO|]. split; [congruence|]. split; [exact WO|].
    intros y x Hy Hx. cbn [log_x log_y log_z] in HO. specialize (HO 0%nat y x (pow2_pos 0) Hy Hx). cbv zeta in HO.
    replace (ld + lr - lr)%nat with ld in HO by lia. rewrite Nat.add_0_r in HO.
    unfold tensor_pos in HO. rewrite !Nat.mul_0_l, !Nat.add_0_l in HO. rewrite HO.
    apply novel_poly_ext. intros j Hj.
    assert (LT : (y / 2 ^ ld * 2 ^ ld + j < 2 ^ (ld + lr))%nat).
    { apply mix_lt; auto. now apply div_lt. }
    rewrite HS.
    - f_equal. replace (ld + lbs)%nat with (lbs + ld)%nat by lia. rewrite (mod_split _ lbs ld). rewrite !Nat.add_0_l. rewrite (mix_div (y / 2 ^ ld * 2 ^ ld + j)) by auto. rewrite (mix_mod (y / 2 ^ ld * 2 ^ ld + j)) by auto. now rewrite mix_mod.
    - rewrite (Nat.add_comm (ld + lr)). now apply mix_lt.
  Qed.

  (** Wrong subspaces and wrong buffer lengths are refused. *)
  Theorem rs_encode_rejects lw ld lr lbs S code : (1 <= ld + lr <= length basis)%nat ->
    S <> domain_basis basis (ld + lr) \/ length code <> (2 ^ (ld + lr + lbs - lw))%nat ->
    encode_batch_inplace lw ts (mkRs S ld lr) code lbs = Err.
  Proof.
    intros [L1 L2] H. unfold encode_batch_inplace, rs_log_len. cbn [rs_subspace rs_log_dim rs_log_inv_rate].
    rewrite (ntt_subspace_correct F H2 basis BI B1 ts HT) by lia. cbn [of_opt rbind].
    destruct (list_eqb (domain_basis basis (ld + lr)) S) eqn:E; cbn [negb]; auto.
    apply list_eqb_spec in E. destruct H as [H|H]; [congruence|]. now rewrite (proj2 (Nat.eqb_neq _ _)).
  Qed.

  (** C29, distance: codewords of different messages agree in fewer than [2^log_dim] positions. *)
  Theorem rs_distance lw ld lr lbs code code' out out' x ys : (1 <= ld + lr <= length basis)%nat ->
    well_packed lw code -> well_packed lw code' ->
    length code = (2 ^ (ld + lr + lbs - lw))%nat -> length code' = (2 ^ (ld + lr + lbs - lw))%nat ->
    (lw <= ld + lbs \/ 2 ^ ld + lbs < lw)%nat ->
    let rs := mkRs (domain_basis basis (ld + lr)) ld lr in
    encode_batch_inplace lw ts rs code lbs = Ok out -> encode_batch_inplace lw ts rs code' lbs = Ok out' ->
    (x < 2 ^ lbs)%nat -> NoDup ys -> (forall y, In y ys -> (y < 2 ^ (ld + lr))%nat) ->
    (forall y, In y ys -> scalar_at lw out (y * 2 ^ lbs + x) = scalar_at lw out' (y * 2 ^ lbs + x)) ->
    (exists j, (j < 2 ^ ld)%nat /\ scalar_at lw code (j * 2 ^ lbs + x) <> scalar_at lw code' (j * 2 ^ lbs + x)) ->
    (length ys < 2 ^ ld)%nat.
  Proof.
    intros LD W W' LC LC' HW rs E E' Hx ND HB HE [j [Hj NE]].
    destruct (Nat.lt_ge_cases (length ys) (2 ^ ld)) as [Q|Q]; auto. exfalso. apply NE. clear NE.
    destruct (rs_encode_correct lw ld lr lbs code LD W LC HW) as [o [EO [_ [_ HO]]]].
    destruct (rs_encode_correct lw ld lr lbs code' LD W' LC' HW) as [o' [EO' [_ [_ HO']]]].
    fold rs in EO, EO'. assert (o = out) by congruence. assert (o' = out') by congruence. subst o o'.
    set (D := domain_basis basis (ld + lr)) in *.
    assert (LDB : length D = (ld + lr)%nat) by (unfold D, domain_basis; now rewrite map_length, seq_length).
    assert (DI : lin_indep D).
    { apply lin_indep_iff. rewrite LDB.
      assert (GB : forall k, (k < ld + lr)%nat -> bs D k = gam F basis (ld + lr) k).
      { intros k Hk. unfold bs, D, domain_basis. rewrite nth_map_seq by auto. rewrite norm_vanishing_hat by (auto; lia). reflexivity. }
      intros m Hm Q0. apply (indep_gam F H2 basis BI (ld + lr)); try lia; auto. rewrite <- Q0. symmetry. now apply bsum_ext. }
    apply (novel_poly_unique F H2 D ld (fun j => scalar_at lw code (j * 2 ^ lbs + x)) (fun j => scalar_at lw code' (j * 2 ^ lbs + x)) ys); auto.
    - rewrite LDB. lia.
    - rewrite LDB. auto.
    - intros y Hy. rewrite <- HO, <- HO' by auto. auto.
  Qed.

  (** C29, linearity. *)
  Theorem rs_linear lw ld lr lbs a b c k outa outb outc : (1 <= ld + lr <= length basis)%nat ->
    well_packed lw a -> well_packed lw b -> well_packed lw c ->
    length a = (2 ^ (ld + lr + lbs - lw))%nat -> length b = (2 ^ (ld + lr + lbs - lw))%nat -> length c = (2 ^ (ld + lr + lbs - lw))%nat ->
    (lw <= ld + lbs \/ 2 ^ ld + lbs < lw)%nat ->
    let rs := mkRs (domain_basis basis (ld + lr)) ld lr in
    encode_batch_inplace lw ts rs a lbs = Ok outa -> encode_batch_inplace lw ts rs b lbs = Ok outb ->
    encode_batch_inplace lw ts rs c lbs = Ok outc ->
    (forall s, (s < 2 ^ (ld + lbs))%nat -> scalar_at lw c s = k * scalar_at lw a s + scalar_at lw b s) ->
    forall s, (s < 2 ^ (ld + lr + lbs))%nat -> scalar_at lw outc s = k * scalar_at lw outa s + scalar_at lw outb s.
  Proof.
    intros LD WA WB WC LA LB LC HW rs EA EB EC HL s Hs.
    destruct (rs_encode_correct lw ld lr lbs a LD WA LA HW) as [oa [OA [_ [_ HA]]]].
    destruct (rs_encode_correct lw ld lr lbs b LD WB LB HW) as [ob [OB [_ [_ HB]]]].
    destruct (rs_encode_correct lw ld lr lbs c LD WC LC HW) as [oc [OC [_ [_ HC]]]].
    fold rs in OA, OB, OC. assert (oa = outa) by congruence. assert (ob = outb) by congruence. assert (oc = outc) by congruence. subst oa ob oc.
    rewrite (mix_dm s lbs). set (y := (s / 2 ^ lbs)%nat). set (x := (s mod 2 ^ lbs)%nat).
    assert (Hx : (x < 2 ^ lbs)%nat) by apply mod_lt.
    assert (Hy : (y < 2 ^ (ld + lr))%nat) by (apply div_lt; now rewrite Nat.add_comm).
    rewrite HA, HB, HC by auto. rewrite <- novel_poly_scale, <- novel_poly_add. apply novel_poly_ext.
    intros j Hj. apply HL. rewrite (Nat.add_comm ld). now apply mix_lt.
  Qed.
End Props.

(** A code of dimension 2 and rate 1/2 in packed elements of four scalars: the repetition test compares
    [dim + log_batch] instead of [log_dim + log_batch] with the packing width, the message is not
    repeated, and the second half of the codeword is not the evaluation of the message. *)
Definition rs_ex_run (code : list (list X16)) : option (list (list X16) * list X16) :=
  match otf_generate (els [1; 2]%N) with
  | Ok ts => match with_ntt_subspace ts 1 1 with
             | Ok rs => match encode_batch_inplace 2 ts rs code 0 with Ok out => Some (out, rs_subspace rs) | _ => None end
             | _ => None end
  | _ => None end.

Theorem rs_encode_narrow_refuted : exists code out D,
  rs_ex_run code = Some (out, D) /\
  exists y, y < 4 /\
    scalar_at 2 out y <> novel_poly D 1 (fun j => scalar_at 2 code j) (elem D y).
Proof.
  set (code := [els [1; 0; 0; 0]%N]).
  destruct (rs_ex_run code) as [[out D]|] eqn:E; [|vm_compute in E; discriminate].
  exists code, out, D. split; [exact E|]. exists 2. split; [lia|].
  intros Q. apply (f_equal (fun x => bits x)) in Q.
  assert (E' : match rs_ex_run code with Some (out, D) => bits (scalar_at 2 out 2) = bits (novel_poly D 1 (fun j => scalar_at 2 code j) (elem D 2)) | None => True end)
    by (rewrite E; exact Q).
  vm_compute in E'. discriminate.
Qed.

(** The hypotheses of the theorems hold for a code of dimension 4 and length 8, two interleaved messages,
    packed elements of two scalars. *)
Example rs_ex :
  match otf_generate (els [1; 2; 4]%N) with
  | Ok ts =>
    match with_ntt_subspace ts 2 1 with
    | Ok rs =>
      let code := [els [1; 2]; els [3; 4]; els [5; 6]; els [7; 8]; els [0; 0]; els [0; 0]; els [0; 0]; els [0; 0]]%N in
      match encode_batch_inplace 1 ts rs code 1 with
      | Ok out => map (fun y => bits (scalar_at 1 out (y * 2 + 1))) (seq 0 8) =
                  map (fun y => bits (novel_poly (rs_subspace rs) 2 (fun j => scalar_at 1 code (j * 2 + 1)) (elem (rs_subspace rs) y))) (seq 0 8)
      | _ => False end
    | _ => False end
  | _ => False end.
Proof. vm_compute. reflexivity. Qed.
