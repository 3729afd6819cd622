(** C65: soundness of the ring-switching reduction. *)
Require Import Coq.Arith.Arith Coq.Lists.List Coq.Bool.Bool Coq.setoid_ring.Ring Coq.Sorting.Permutation Lia.
From Verif Require Import Base.Fld Base.Lists Base.Sums Base.NatBits Math.MleSpec Math.MleModel Math.TensorProps Math.MleProps Protocol.Proto Protocol.Soundness Protocol.Safe
  Utils.SortModel Utils.SortProps Sumcheck.EqIndProps Sumcheck.ZerocheckModel Sumcheck.ZerocheckProofs Sumcheck.ZerocheckProps
  RingSwitch.TensorModel RingSwitch.TransposeProps RingSwitch.TensorProofs RingSwitch.AlgebraProps RingSwitch.SwitchModel RingSwitch.SwitchEqProps RingSwitch.SwitchSpec RingSwitch.SwitchProofs.
Import ListNotations.
Local Open Scope nat_scope.

Section Sound.
  Variable F : field.
  Hypothesis C2 : char2 F.
  Variable L : nat.
  Variable E : forall kappa, option (ext F kappa).
  Local Open Scope fld_scope.
  Add Ring Fring : (f_ring F).

  Lemma exists_dec n (f : nat -> F) : (exists j, (j < n)%nat /\ f j <> 0) \/ (forall j, (j < n)%nat -> f j = 0).
  Proof.
    induction n as [|n IH]; [right; intros; lia|]. destruct (feq_dec F (f n) 0) as [Z|N]; [|left; exists n; auto]. destruct IH as [(j & Hj & N)|H]; [left; exists j; auto|].
    right. intros j Hj. destruct (Nat.eq_dec j n) as [->|]; auto. apply H. lia.
  Qed.
  (** *** folding, as a functional on tables *)
  Section Fun.
    Variable kappa : nat.
    Variable X : ext F kappa.
    Variable coeffs : list F.
    Notation D := (2 ^ kappa)%nat.
    Definition vf (f : nat -> F) : F := sumn D (fun j => sumn D (fun i => co X j (f i) * beta X i) * nth j coeffs 0).
    Lemma vf_ext f g : (forall i, (i < D)%nat -> f i = g i) -> vf f = vf g.
    Proof. intros H. unfold vf. apply sumn_ext. intros j Hj. f_equal. apply sumn_ext. intros i Hi. now rewrite H. Qed.
    Lemma vfold_vf t : vfold F kappa X t coeffs = vf (fun i => nth i t 0).
    Proof. unfold vfold, vf. apply sumn_ext. intros j Hj. now rewrite trans_nth. Qed.
    Lemma vf_sum n (g : nat -> nat -> F) : vf (fun i => sumn n (fun k => g k i)) = sumn n (fun k => vf (g k)).
    Proof.
      unfold vf. rewrite <- sumn_swap. apply sumn_ext. intros j Hj. rewrite sumn_scale_r. f_equal. rewrite <- sumn_swap. apply sumn_ext. intros i Hi.
      rewrite (co_sumn F kappa X) by auto. rewrite sumn_scale_r. reflexivity.
    Qed.
    Lemma vf_add f g : vf (fun i => f i + g i) = vf f + vf g.
    Proof.
      unfold vf. rewrite <- sumn_add. apply sumn_ext. intros j Hj. rewrite <- (Rdistr_l (f_ring F)). f_equal. rewrite <- sumn_add. apply sumn_ext. intros i Hi. rewrite co_add by auto. ring.
    Qed.
    Lemma vf_0 : vf (fun _ => 0) = 0.
    Proof. unfold vf. apply sumn_zero. intros j Hj. rewrite sumn_zero; [ring|]. intros i Hi. rewrite (co_0 F kappa X) by auto. ring. Qed.
    (** the functional on a mixed partial evaluation is the sum of the packed values times the indicator *)
    Lemma vf_part m P z : vf (fun j => m * part F X P z j) = sumn (2 ^ length z) (fun x => P x * w F kappa X coeffs (m * eqw z x)).
    Proof.
      rewrite (vf_ext _ (fun j => sumn (2 ^ length z) (fun x => m * eqw z x * co X j (P x)))) by (intros i Hi; unfold part; rewrite <- sumn_scale; apply sumn_ext; intros; ring).
      rewrite (vf_sum (2 ^ length z) (fun x j => m * eqw z x * co X j (P x))). apply sumn_ext. intros x Hx. unfold vf, w. rewrite <- sumn_scale. apply sumn_ext. intros j Hj.
      transitivity (nth j coeffs 0 * (co X j (m * eqw z x) * sumn D (fun i => co X i (P x) * beta X i))); [|rewrite co_sum; ring]. rewrite <- sumn_scale, (Rmul_comm (f_ring F)). f_equal.
      apply sumn_ext. intros i Hi. rewrite (Rmul_comm (f_ring F) (m * eqw z x)). rewrite co_smul; [ring|exact Hj|now apply co_insub].
    Qed.
    (** a nonzero table has a nonzero transposed entry *)
    Lemma trans_nonzero f : (exists i, (i < D)%nat /\ f i <> 0) -> exists j, (j < D)%nat /\ sumn D (fun i => co X j (f i) * beta X i) <> 0.
    Proof.
      intros (i & Hi & NZ). destruct (exists_dec D (fun j => sumn D (fun i => co X j (f i) * beta X i))) as [H|H]; [exact H|]. exfalso. apply NZ. apply (co_ext F kappa X). intros j Hj. rewrite (co_0 F kappa X) by auto.
      rewrite <- (co_comb F kappa X (fun i => co X j (f i)) i); [|intros; now apply co_insub|exact Hi]. rewrite H by auto. now apply co_0.
    Qed.
  End Fun.

  (** *** drawing challenges nothing depends on *)
  Lemma sample_any {B} (good : B -> Prop) e N : forall k : list F -> vproto F B, (forall r, length r = N -> sound good e (k r)) -> sound good e (vbind (vsamples N) k).
  Proof.
    induction N as [|N IH]; intros k H; cbn [vsamples vbind]; [now apply H|]. change e with (0 + e)%nat. apply (sound_sample F good 0 e (fun _ => false)); [apply at_most_none|].
    intros c _. apply sound_assoc. cbn [vbind]. apply (IH (fun r => k (c :: r))). intros r Hr. apply H. cbn. lia.
  Qed.
  Lemma sample_root {B} (good : B -> Prop) e N (v : nat -> F) (k : list F -> vproto F B) : (exists y, (y < 2 ^ N)%nat /\ v y <> 0) ->
    (forall r, length r = N -> mle v r <> 0 -> sound good e (k r)) -> sound good (N + e) (vbind (vsamples N) k).
  Proof.
    intros NZ H. apply (sample_point_sound F good e N N v k (le_n _) NZ). intros r Lr. unfold EqIndProps.lastn. rewrite Lr, Nat.sub_diag. cbn [skipn]. now apply H.
  Qed.

  (** *** receiving the tensor elements *)
  Definition received (p : list F) (ex : F) (t : tten F) : Prop :=
    exists X elems, E (length p) = Some X /\ t = mkTT F (length p) X elems /\ length elems = (2 ^ length p)%nat /\ mle (fun i => nth i elems 0) p = ex.
  Lemma tnew_id kappa elems : length elems = (2 ^ kappa)%nat -> tnew F kappa elems = elems.
  Proof. intros H. unfold tnew. rewrite H, Nat.sub_diag. cbn [repeat]. rewrite app_nil_r. now rewrite <- H, firstn_all. Qed.
  Lemma eval_prefix (elems p : list F) : length elems = (2 ^ length p)%nat ->
    (try q <- query_expand 0 p; try m <- expect (me_new 0 (length p) elems); expect (me_evaluate 0 0 m q)) = Ok (mle (fun i => nth i elems 0) p).
  Proof.
    intros H. destruct (query_expand_correct F 0 p) as (q & Eq & HQ). rewrite Eq. cbn [rbind].
    assert (M := me_new_correct F 0 (length p) elems (2 ^ length p)). rewrite Nat.pow_0_r, Nat.mul_1_r, Nat.sub_0_r, Nat.eqb_refl in M. destruct (M H) as [M1 M2]. rewrite M1. cbn [expect rbind].
    rewrite (evaluate_correct F 0 0 _ _ q p M2 HQ). cbn [me_mu]. rewrite Nat.eqb_refl. reflexivity.
  Qed.
  Lemma receive_sound {B} (good : B -> Prop) e : forall prefixes expected (k : list (tten F) -> vproto F B), length expected = length prefixes ->
    (forall ts, length ts = length prefixes -> (forall g, (g < length prefixes)%nat -> exists t, nth_error ts g = Some t /\ received (nth g prefixes []) (nth g expected 0) t) -> sound good e (k ts)) ->
    sound good e (vbind (receive_tensors F E prefixes expected) k).
  Proof.
    induction prefixes as [|p prefixes IH]; intros [|ex expected] k Hl H; try discriminate; cbn [receive_tensors].
    - cbn [vbind]. apply H; [reflexivity|]. intros g Hg. cbn in Hg. lia.
    - apply sound_assoc. apply sound_bind_read. intros elems Le. apply sound_assoc. apply sound_bind0. intros t Et. unfold tt_new in Et. destruct (E (length p)) as [X|] eqn:EX; [|discriminate]. rewrite tnew_id in Et by auto. injection Et as <-. cbn [tt_elems].
      apply sound_assoc. apply sound_bind0. intros v Ev. rewrite eval_prefix in Ev by auto. injection Ev as <-. destruct (feqb_spec F (mle (fun i => nth i elems 0) p) ex) as [Q|]; [|cbn [vbind]; constructor].
      apply sound_assoc. apply IH; [cbn in Hl; lia|]. intros ts Lt Ht. cbn [vbind]. apply H; [cbn; lia|]. intros [|g] Hg; cbn [nth_error nth].
      + eexists. split; [reflexivity|]. exists X, elems. auto.
      + apply Ht. cbn in Hg. lia.
  Qed.
  Lemma check_spec coeffs : forall mixed ts, check_row_batched F mixed ts coeffs = Ok tt -> forall g t, nth_error ts g = Some t -> (g < length mixed)%nat -> tt_fold F t coeffs = Ok (nth g mixed 0).
  Proof.
    induction mixed as [|m mixed IH]; intros [|t0 ts] H g t Ht Hg; try (destruct g; discriminate); try (cbn in Hg; lia). cbn [check_row_batched] in H. destruct (tt_fold F t0 coeffs) as [v| |] eqn:Ev; cbn [rbind] in H; try discriminate.
    destruct (feqb_spec F v m) as [->|]; [|discriminate]. destruct g as [|g]; cbn [nth_error nth] in *; [injection Ht as <-; exact Ev|]. apply (IH ts); auto. cbn in Hg. lia.
  Qed.
  Lemma make_eqinds_spec ss coeffs : forall ds mixing eqs, make_eqinds F E ss coeffs ds mixing = Ok eqs -> (length ds <= length mixing)%nat ->
    forall i d, nth_error ds i = Some d -> exists z kappa X, nth_error ss (snd (fst d)) = Some (z, kappa) /\ E kappa = Some X /\ (2 ^ kappa <= length coeffs)%nat /\ nth_error eqs i = Some (mkEqInd F kappa X z coeffs (nth i mixing 0)).
  Proof.
    induction ds as [|d0 ds IH]; intros [|m mixing] eqs H Hl i d Hd; try (destruct i; discriminate); try (cbn in Hl; lia). cbn [make_eqinds] in H.
    destruct (make_eqind F E ss coeffs d0 m) as [a| |] eqn:Ea; cbn [rbind] in H; try discriminate. destruct (make_eqinds F E ss coeffs ds mixing) as [r| |] eqn:Er; cbn [rbind] in H; try discriminate. injection H as <-.
    destruct i as [|i]; cbn [nth_error nth] in *.
    - injection Hd as <-. unfold make_eqind in Ea. destruct (nth_error ss (snd (fst d0))) as [[z kappa]|]; [|discriminate]. destruct (E kappa) as [X|] eqn:EX; [|discriminate]. unfold eqind_new in Ea.
      destruct (Nat.ltb_spec (length coeffs) (2 ^ kappa)); [discriminate|]. injection Ea as <-. exists z, kappa, X. auto.
    - apply (IH mixing r Er); [cbn in Hl; lia|exact Hd].
  Qed.
  Lemma make_claims_spec ss : forall ds i0 evals cl, make_claims F ss i0 ds evals = Ok cl -> (length ds <= length evals)%nat ->
    forall i d z kappa, nth_error ds i = Some d -> nth_error ss (snd (fst d)) = Some (z, kappa) -> nth_error cl i = Some (mkSc F (length z) (fst (fst d)) (i0 + i) (nth i evals 0)).
  Proof.
    induction ds as [|d0 ds IH]; intros i0 [|e evals] cl H Hl i d z kappa Hd Hz; try (destruct i; discriminate); try (cbn in Hl; lia). cbn [make_claims] in H.
    destruct (nth_error ss (snd (fst d0))) as [[z0 k0]|] eqn:E0; [|discriminate]. destruct (make_claims F ss (S i0) ds evals) as [r| |] eqn:Er; cbn [rbind] in H; try discriminate. injection H as <-.
    destruct i as [|i]; cbn [nth_error nth] in *.
    - injection Hd as <-. rewrite E0 in Hz. injection Hz as -> ->. now rewrite Nat.add_0_r.
    - replace (i0 + S i)%nat with (S i0 + i)%nat by lia. apply (IH (S i0) evals r Er) with (d := d) (kappa := kappa); auto. cbn in Hl. lia.
  Qed.

  (** *** the system *)
  Section System.
    Variable s : system F.
    Notation n := (length (claim_descs F s)).
    Definition Dof i := nth i (claim_descs F s) (0%nat, 0%nat, mkClaim F 0 [] 0).
    Definition Kof i : nat := fst (fst (Dof i)).
    Definition Zof i : list F := fst (nth (snd (fst (Dof i))) (suffix_descs F s) ([], 0%nat)).
    Definition Gof i : nat := nth i (claim_to_prefix F s) 0%nat.
    Definition Pof i : list F := nth (Gof i) (prefix_descs F s) [].
    Definition Vof i : F := ec_eval F (snd (Dof i)).
    Definition system_ok : Prop :=
      length (claim_to_prefix F s) = n /\ (forall p, In p (prefix_descs F s) -> (length p <= L)%nat) /\
      forall i, (i < n)%nat -> (Gof i < length (prefix_descs F s))%nat /\ nth_error (suffix_descs F s) (snd (fst (Dof i))) = Some (Zof i, length (Pof i)).

    Hypothesis OK : system_ok.
    Variable committed : nat -> nat -> F.
    Lemma c2p_bound : Forall (fun p => (p < length (prefix_descs F s))%nat) (claim_to_prefix F s).
    Proof. destruct OK as (H1 & _ & H). apply Forall_nth. intros i d Hi. rewrite H1 in Hi. destruct (H i Hi) as [G _]. unfold Gof in G. rewrite (nth_indep _ d 0%nat); [exact G|lia]. Qed.
    Lemma kappa_le g : (g < length (prefix_descs F s))%nat -> (length (nth g (prefix_descs F s) []) <= max_claim_kappa F s)%nat.
    Proof.
      intros Hg. unfold max_claim_kappa. assert (H := proj1 (list_max_le (map (@length F) (prefix_descs F s)) _) (le_n _)). rewrite Forall_forall in H. apply H. apply in_map. now apply nth_In.
    Qed.
    Lemma max_kappa_le : (max_claim_kappa F s <= L)%nat.
    Proof. destruct OK as (_ & H & _). unfold max_claim_kappa. apply list_max_le. rewrite Forall_forall. intros x Hx. apply in_map_iff in Hx. destruct Hx as (p & <- & Hp). auto. Qed.

    (** the verifier after the first challenges *)
    Definition rest (mixing : list F) : vproto F (reduced F) :=
      get expected <- VRet (compute_mixed F (map (fun d => ec_eval F (snd d)) (claim_descs F s)) (length (prefix_descs F s)) (claim_to_prefix F s) mixing);
      get ts <- receive_tensors F E (prefix_descs F s) expected;
      get row_challenges <- vsamples (max_claim_kappa F s);
      get coeffs <- VRet (expand F row_challenges);
      get evals <- vread n;
      get mixed <- VRet (accumulate_by_prefix F evals (length (prefix_descs F s)) (claim_to_prefix F s));
      get _ <- VRet (check_row_batched F mixed ts coeffs);
      get eqs <- VRet (make_eqinds F E (suffix_descs F s) coeffs (claim_descs F s) mixing);
      get claims <- VRet (make_claims F (suffix_descs F s) 0 (claim_descs F s) evals);
      VRet (Ok (mkReduced F eqs claims)).
    Lemma mixed_spec mixing : (n <= length mixing)%nat -> exists b, compute_mixed F (map (fun d => ec_eval F (snd d)) (claim_descs F s)) (length (prefix_descs F s)) (claim_to_prefix F s) mixing = Ok b /\
      length b = length (prefix_descs F s) /\ forall g, (g < length (prefix_descs F s))%nat -> nth g b 0 = sumn n (fun i => if (Gof i =? g)%nat then Vof i * nth i mixing 0 else 0).
    Proof.
      intros Lm. destruct OK as (H1 & _ & _). unfold compute_mixed.
      assert (Le : length (map (fun p : F * F => fst p * snd p) (combine (map (fun d => ec_eval F (snd d)) (claim_descs F s)) mixing)) = length (claim_to_prefix F s)) by (rewrite map_length, combine_length, map_length, H1; lia).
      destruct (accumulate_spec F (length (prefix_descs F s)) (claim_to_prefix F s) _ Le c2p_bound) as (b & Eb & Lb & Hb).
      exists b. split; [exact Eb|]. split; [exact Lb|]. intros g Hg. rewrite (Hb g Hg), H1. apply sumn_ext. intros i Hi. unfold Gof. destruct (nth i (claim_to_prefix F s) 0%nat =? g)%nat; [|reflexivity].
      rewrite (nth_indep _ 0 (0 * 0)) by (rewrite Le, H1; exact Hi). change (0 * 0) with ((fun p : F * F => fst p * snd p) (0, 0)). rewrite map_nth. assert (C : forall A B (l : list A) (m : list B) a b i, (i < length l)%nat -> (length l <= length m)%nat -> nth i (combine l m) (a, b) = (nth i l a, nth i m b)).
      { intros A B. induction l as [|x l IH]; intros [|y m] a b' j Hj Hl; cbn in *; try lia. destruct j as [|j]; [reflexivity|]. apply IH; lia. }
      rewrite C by (rewrite map_length; lia). cbn [fst snd]. f_equal. unfold Vof, Dof. rewrite (nth_indep _ 0 (ec_eval F (snd (0%nat, 0%nat, mkClaim F 0 [] 0)))) by (rewrite map_length; exact Hi). now rewrite (map_nth (fun d => ec_eval F (snd d))).
    Qed.

    (** an unsupported packing degree is rejected *)
    Lemma rest_unsupported good e mixing i0 : (n <= length mixing)%nat -> (i0 < n)%nat -> E (length (Pof i0)) = None -> sound good e (rest mixing).
    Proof.
      intros Lm Hi0 EN. unfold rest. destruct (mixed_spec mixing Lm) as (b & Eb & Lb & Hb). rewrite Eb. cbn [vbind]. apply receive_sound; [exact Lb|]. intros ts Lts Hts. exfalso.
      destruct OK as (_ & _ & H). destruct (H i0 Hi0) as [G _]. destruct (Hts (Gof i0) G) as (t & _ & X & elems & EX & _). fold (Pof i0) in EX. congruence.
    Qed.

    Section Group.
      Variable g0 : nat.
      Hypothesis Hg0 : (g0 < length (prefix_descs F s))%nat.
      Notation p0 := (nth g0 (prefix_descs F s) []).
      Variable X0 : ext F (length p0).
      Hypothesis EX0 : E (length p0) = Some X0.
      Definition tv i j := part F X0 (committed (Kof i)) (Zof i) j.
      Definition difference i : F := if (Gof i =? g0)%nat then Vof i + mle (tv i) p0 else 0.
      Lemma group_contradiction coeffs mixing evals eqs cl :
        (2 ^ length p0 <= length coeffs)%nat -> (n <= length mixing)%nat -> length evals = n ->
        make_eqinds F E (suffix_descs F s) coeffs (claim_descs F s) mixing = Ok eqs ->
        make_claims F (suffix_descs F s) 0 (claim_descs F s) evals = Ok cl ->
        all_reduced_true F committed (mkReduced F eqs cl) ->
        forall i, (i < n)%nat -> Gof i = g0 -> nth i evals 0 = vf (length p0) X0 coeffs (fun j => nth i mixing 0 * tv i j).
      Proof.
        intros Lc Lm Le Eeq Ecl T i Hi Gi. destruct OK as (_ & _ & H). destruct (H i Hi) as [_ Hz].
        assert (ND : nth_error (claim_descs F s) i = Some (Dof i)) by (apply nth_error_nth'; exact Hi).
        destruct (make_eqinds_spec _ _ _ _ _ Eeq Lm i _ ND) as (z & kappa & X & Hz' & EX & LX & Na). rewrite Hz in Hz'. injection Hz' as <- <-.
        assert (Nc := make_claims_spec _ _ _ _ _ Ecl (eq_ind_r (fun l => (n <= l)%nat) (le_n _) Le) i _ _ _ ND Hz). rewrite Nat.add_0_l in Nc.
        destruct (T _ (nth_error_In _ _ Nc)) as (a & A & Ha & HA & Hs). cbn [rc_transparents sc_transparent sc_n_vars sc_committed sc_sum] in *. rewrite Na in Ha. injection Ha as <-.
        assert (PE : Pof i = p0) by (unfold Pof; now rewrite Gi).
        revert X EX LX Na HA. rewrite PE. intros X EX LX Na HA. rewrite EX0 in EX. injection EX as <-.
        rewrite <- Hs. unfold tv. rewrite vf_part. apply sumn_ext. intros x Hx. f_equal. specialize (HA x Hx). rewrite (eqind_evaluate_correct F C2) in HA by (cbn [ei_kappa ei_coeffs]; exact Lc). cbn [ei_z] in HA. rewrite vertex_length, Nat.eqb_refl in HA. injection HA as <-.
        rewrite mle_on_cube by auto. reflexivity.
      Qed.
      Lemma rest_sound (claims : Prop) mixing : (n <= length mixing)%nat -> sumn n (fun i => nth i mixing 0 * difference i) <> 0 ->
        sound (fun out => all_reduced_true F committed out -> claims) (max_claim_kappa F s) (rest mixing).
      Proof.
        intros Lm NZ. unfold rest. destruct (mixed_spec mixing Lm) as (b & Eb & Lb & Hb). rewrite Eb. cbn [vbind]. apply receive_sound; [exact Lb|]. intros ts Lts Hts.
        destruct (Hts g0 Hg0) as (t & Nt & X & elems & EX & -> & Le & Ev). rewrite EX0 in EX. injection EX as <-. rewrite Hb in Ev by auto.
        set (M := fun j => sumn n (fun i => if (Gof i =? g0)%nat then nth i mixing 0 * tv i j else 0)).
        set (dlt := fun j => nth j elems 0 + M j).
        assert (MM : mle M p0 = sumn n (fun i => if (Gof i =? g0)%nat then nth i mixing 0 * mle (tv i) p0 else 0)).
        { unfold mle, M. rewrite (sumn_ext F _ _ (fun x => sumn n (fun i => eqw p0 x * (if (Gof i =? g0)%nat then nth i mixing 0 * tv i x else 0)))) by (intros; rewrite <- sumn_scale_r; apply sumn_ext; intros; ring).
          rewrite sumn_swap. apply sumn_ext. intros i Hi. destruct (Gof i =? g0)%nat; [|apply sumn_zero; intros; ring]. rewrite <- sumn_scale. apply sumn_ext. intros; ring. }
        assert (MD : mle dlt p0 <> 0).
        { unfold dlt. rewrite (mle_ext F _ (fun j => 1 * nth j elems 0 + 1 * M j) p0) by (intros; ring). rewrite mle_lin, Ev, MM. intros Z. apply NZ. etransitivity; [|exact Z]. rewrite <- !sumn_scale, <- sumn_add. apply sumn_ext. intros i Hi. unfold difference. destruct (Gof i =? g0)%nat; ring. }
        assert (ND : exists j, (j < 2 ^ length p0)%nat /\ dlt j <> 0).
        { destruct (exists_dec (2 ^ length p0) dlt) as [H|H]; [exact H|]. exfalso. apply MD. unfold mle. apply sumn_zero. intros x Hx. rewrite H by auto. ring. }
        destruct (trans_nonzero (length p0) X0 dlt ND) as (j0 & Hj0 & R0).
        set (R := fun j => sumn (2 ^ length p0) (fun i => co X0 j (dlt i) * beta X0 i)) in *.
        assert (KL := kappa_le g0 Hg0). assert (PL : (2 ^ length p0 <= 2 ^ max_claim_kappa F s)%nat) by (apply pow2_le; exact KL).
        apply (sound_mono F (fun out => all_reduced_true F committed out -> claims) _ (max_claim_kappa F s + 0)%nat); [|lia|auto]. apply (sample_root _ 0 _ (fun j => if (j <? 2 ^ length p0)%nat then R j else 0)).
        { exists j0. split; [lia|]. destruct (Nat.ltb_spec j0 (2 ^ length p0)); [exact R0|lia]. }
        intros r Lr NR. destruct (expand_ok F r) as (coeffs & Ec & Lc & Hc). rewrite Ec. cbn [vbind]. rewrite Lr in *.
        assert (VD : vf (length p0) X0 coeffs dlt <> 0).
        { intros Z. apply NR. etransitivity; [|exact Z]. unfold mle. rewrite Lr. rewrite (sumn_trunc F (2 ^ length p0)); [|exact PL|intros i Hi; destruct (Nat.ltb_spec i (2 ^ length p0)); [lia|ring]].
          unfold vf. apply sumn_ext. intros j Hj. destruct (Nat.ltb_spec j (2 ^ length p0)); [|lia]. rewrite Hc by lia. unfold R. ring. }
        constructor. intros evals Lev. destruct OK as (H1 & _ & _). destruct (accumulate_spec F (length (prefix_descs F s)) (claim_to_prefix F s) evals (eq_trans Lev (eq_sym H1)) c2p_bound) as (mixed & Em & Lmx & Hm). cbn [vbind].
        rewrite Em. cbn [vbind]. destruct (check_row_batched F mixed ts coeffs) as [[]| |] eqn:CK; cbn [vbind]; try constructor.
        apply sound_bind0. intros eqs Eeq. apply sound_bind0. intros cl Ecl. constructor. intros T. exfalso.
        assert (FD := check_spec coeffs mixed ts CK g0 _ Nt (eq_ind_r (fun l => (g0 < l)%nat) Hg0 Lmx)). unfold tt_fold in FD. cbn [tt_kappa tt_ext tt_elems] in FD. rewrite fold_ok in FD by lia. injection FD as FD. rewrite vfold_vf, Hm, H1 in FD by auto.
        apply VD. unfold dlt. rewrite vf_add, FD. unfold M. rewrite (vf_sum (length p0) X0 coeffs n (fun i j => if (Gof i =? g0)%nat then nth i mixing 0 * tv i j else 0)), <- sumn_add. apply sumn_zero. intros i Hi. change (nth i (claim_to_prefix F s) 0%nat) with (Gof i).
        destruct (Nat.eqb_spec (Gof i) g0) as [Gi|_]; [|rewrite vf_0; ring].
        rewrite (group_contradiction coeffs mixing evals eqs cl) by (auto; lia). apply (char2_double F C2).
      Qed.
    End Group.
  End System.

  Theorem system_new_spec oracles index claims s : system_new F L oracles index claims = Ok s ->
    system_ok s /\ (forall p, In p (prefix_descs F s) -> exists o, In (Some o) oracles /\ o_committed o = true /\ (o_level o <= L)%nat /\ length p = (L - o_level o)%nat) /\ exists sorted, Permutation sorted claims /\ length sorted = length (claim_descs F s) /\
      forall i c, nth_error sorted i = Some c -> exists o k, Dof s i = (k, snd (fst (Dof s i)), c) /\ index (ec_id F c) = Some k /\ nth_error oracles (ec_id F c) = Some (Some o) /\ o_committed o = true /\ (o_level o <= L)%nat /\
        split_point F (L - o_level o) (ec_point F c) = (Pof s i, Zof s i).
  Proof.
    unfold system_new. destruct (negb _); [discriminate|]. set (sorted := sort_by _ claims).
    destruct (group_claims F L oracles sorted [] []) as [[[[ps pi] ss] si]| |] eqn:EG; cbn [rbind]; try discriminate.
    destruct (make_descs F oracles index sorted si) as [ds| |] eqn:ED; cbn [rbind]; try discriminate. intros [= <-].
    destruct (group_spec F L oracles _ _ _ _ _ _ _ EG) as ((r & Er & Hr) & _ & Lpi & Lsi & HG). cbn [app] in Er. subst r.
    destruct (make_descs_spec F oracles index _ _ _ ED) as (Lds & HD).
    assert (KEY : forall i c, nth_error sorted i = Some c -> exists o k, Dof (mkSystem F ps ss ds pi) i = (k, snd (fst (Dof (mkSystem F ps ss ds pi) i)), c) /\ index (ec_id F c) = Some k /\ nth_error oracles (ec_id F c) = Some (Some o) /\ o_committed o = true /\ (o_level o <= L)%nat /\
        split_point F (L - o_level o) (ec_point F c) = (Pof (mkSystem F ps ss ds pi) i, Zof (mkSystem F ps ss ds pi) i) /\ nth_error ps (Gof (mkSystem F ps ss ds pi) i) = Some (Pof (mkSystem F ps ss ds pi) i) /\
        nth_error ss (snd (fst (Dof (mkSystem F ps ss ds pi) i))) = Some (Zof (mkSystem F ps ss ds pi) i, length (Pof (mkSystem F ps ss ds pi) i))).
    { intros i c Hc. destruct (HG i c Hc) as (o & Ho & Hoc & Hl & Hp & Hs). destruct (HD i c Hc) as (k & Hk & Hd). exists o, k.
      assert (DE : Dof (mkSystem F ps ss ds pi) i = (k, nth i si 0%nat, c)) by (unfold Dof; cbn [claim_descs]; erewrite nth_error_nth; [reflexivity|exact Hd]).
      rewrite DE. cbn [fst snd]. assert (PE : Pof (mkSystem F ps ss ds pi) i = fst (split_point F (L - o_level o) (ec_point F c))) by (unfold Pof, Gof; cbn [prefix_descs claim_to_prefix]; now apply nth_error_nth).
      assert (ZE : Zof (mkSystem F ps ss ds pi) i = snd (split_point F (L - o_level o) (ec_point F c))) by (unfold Zof; rewrite DE; cbn [fst snd suffix_descs]; erewrite nth_error_nth; [|exact Hs]; reflexivity).
      rewrite PE, ZE, split_point_length. repeat split; auto. apply surjective_pairing. }
    split.
    - split; [cbn [claim_to_prefix claim_descs]; congruence|]. split; [intros p Hp; destruct (Hr p Hp) as (o & _ & _ & _ & Hl); rewrite Hl; apply Nat.le_sub_l|]. cbn [claim_descs prefix_descs suffix_descs]. intros i Hi. destruct (nth_error sorted i) as [c|] eqn:Hc; [|apply nth_error_None in Hc; lia].
      destruct (KEY i c Hc) as (o & k & _ & _ & _ & _ & _ & _ & H7 & H8). split; [|exact H8]. apply nth_error_Some. congruence.
    - split; [exact Hr|]. exists sorted. split; [apply sort_perm|]. split; [cbn [claim_descs]; congruence|]. intros i c Hc. destruct (KEY i c Hc) as (o & k & H1 & H2 & H3 & H4 & H5 & H6 & _). exists o, k. auto 10.
  Qed.

  (** C65: if a claim is false, the verifier ends with reduced claims that are all true with the challenges falling into a set of
      measure at most [(log2_ceil (number of claims) + tower level) / |F|], whatever the prover sends. *)
  Theorem ring_switch_sound oracles index claims s committed : system_new F L oracles index claims = Ok s ->
    sound (fun out => all_reduced_true F committed out -> forall c, In c claims -> claim_true F L E committed oracles index c) (log2_ceil (length claims) + L) (rs_verify F E s).
  Proof.
    intros HS. destruct (system_new_spec _ _ _ _ HS) as (OK & _ & sorted & PS & Ls & HC).
    assert (Ln : length (claim_descs F s) = length claims) by (rewrite <- Ls; now apply Permutation_length).
    set (bad := fun i => match E (length (Pof s i)) with None => 1 | Some X => Vof s i + mle (part F X (committed (Kof s i)) (Zof s i)) (Pof s i) end).
    destruct (exists_dec (length claims) bad) as [(i0 & Hi0 & B0)|AT].
    - eapply (sound_mono F _ _ (log2_ceil (length claims) + max_claim_kappa F s)%nat); [|pose proof (max_kappa_le s OK); lia|intros a Ha; exact Ha]. unfold rs_verify. rewrite Ln.
      destruct OK as (O1 & O2 & O3) eqn:OKE. clear OKE. set (OK' := conj O1 (conj O2 O3) : system_ok s). destruct (O3 i0) as [G0 _]; [lia|]. unfold bad in B0.
      assert (LN : (length claims <= 2 ^ log2_ceil (length claims))%nat) by apply log2_ceil_le.
      destruct (E (length (Pof s i0))) as [X0|] eqn:EX0.
      + apply (sample_root _ _ _ (fun i => if (i <? length claims)%nat then difference s committed (Gof s i0) X0 i else 0)).
        { exists i0. split; [lia|]. destruct (Nat.ltb_spec i0 (length claims)); [|lia]. unfold difference. rewrite Nat.eqb_refl. exact B0. }
        intros r Lr NR. destruct (expand_ok F r) as (mixing & Em & Lm & Hm). rewrite Em. cbn [vbind]. rewrite Lr in *.
        pose proof (rest_sound s OK' committed (Gof s i0) G0 X0 EX0 (forall c, In c claims -> claim_true F L E committed oracles index c) mixing) as RS. rewrite Ln in RS. unfold rest in RS. rewrite Ln in RS. apply RS; [lia|].
        intros Z. apply NR. etransitivity; [|exact Z]. unfold mle. rewrite Lr. rewrite (sumn_trunc F (length claims)); [|exact LN|intros i Hi; destruct (Nat.ltb_spec i (length claims)); [lia|ring]].
        apply sumn_ext. intros i Hi. destruct (Nat.ltb_spec i (length claims)); [|lia]. rewrite Hm by lia. ring.
      + apply sample_any. intros r Lr. destruct (expand_ok F r) as (mixing & Em & Lm & Hm). rewrite Em. cbn [vbind]. rewrite Lr in *.
        pose proof (rest_unsupported s OK' (fun out => all_reduced_true F committed out -> forall c, In c claims -> claim_true F L E committed oracles index c) (log2_ceil (length claims) + max_claim_kappa F s)%nat mixing i0) as RS. rewrite Ln in RS. unfold rest in RS. rewrite Ln in RS. apply RS; auto; lia.
    - apply sound_true. intros out _ c Hc. apply (Permutation_in _ (Permutation_sym PS)) in Hc. apply In_nth_error in Hc. destruct Hc as (i & Hc). assert (Hi : (i < length claims)%nat) by (rewrite <- Ln, <- Ls; apply nth_error_Some; congruence).
      destruct (HC i c Hc) as (o & k & HD & Hk & Ho & _ & Hl & Hsp). specialize (AT i Hi). unfold bad in AT.
      assert (PL : length (Pof s i) = (L - o_level o)%nat) by (change (Pof s i) with (fst (Pof s i, Zof s i)); rewrite <- Hsp; apply split_point_length).
      destruct (E (length (Pof s i))) as [X|] eqn:EX; [|now apply f_10 in AT]. apply (proj1 (char2_add_eq0 F C2 _ _)) in AT. revert X EX AT. rewrite PL. intros X EX AT. exists o, k, X. repeat split; auto. rewrite unpacked_eval, Hsp. cbn [fst snd]. unfold Vof, Kof in AT. rewrite HD in AT. cbn [fst snd] in AT. now symmetry.
  Qed.
End Sound.
