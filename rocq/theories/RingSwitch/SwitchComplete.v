(** C65: the ring-switching verifier never panics and accepts an honest prover. *)
Require Import Coq.Arith.Arith Coq.Lists.List Coq.Bool.Bool Coq.setoid_ring.Ring Coq.Sorting.Permutation Lia.
From Verif Require Import Base.Fld Base.Lists Base.Sums Base.NatBits Math.MleSpec Math.MleModel Math.TensorProps Math.MleProps Protocol.Proto Protocol.Soundness Protocol.Safe Protocol.Complete
  Utils.SortModel Utils.SortProps Sumcheck.ZerocheckModel Sumcheck.ZerocheckProofs Sumcheck.ZerocheckProps Sumcheck.BatchProverProofs Compute.CpuModel
  RingSwitch.TensorModel RingSwitch.TransposeProps RingSwitch.TensorProofs RingSwitch.AlgebraProps RingSwitch.SwitchModel RingSwitch.SwitchEqProps RingSwitch.SwitchSpec RingSwitch.SwitchProofs RingSwitch.SwitchSound.
Import ListNotations.
Local Open Scope nat_scope.

Section Complete.
  Variable F : field.
  Hypothesis C2 : char2 F.
  Variable L : nat.
  Variable E : forall kappa, option (ext F kappa).
  Local Open Scope fld_scope.
  Add Ring Fring : (f_ring F).

  (** *** no panics *)
  Lemma receive_safe : forall prefixes expected,
    safe (fun ts => Forall (fun t => length (tt_elems F t) = (2 ^ tt_kappa F t)%nat /\ In (tt_kappa F t) (map (@length F) prefixes)) ts) (receive_tensors F E prefixes expected).
  Proof.
    induction prefixes as [|p prefixes IH]; intros [|ex expected]; cbn [receive_tensors safe]; auto.
    cbn [vbind safe]. intros elems Le. unfold tt_new. destruct (E (length p)) as [X|]; cbn [vbind safe]; [|exact I]. rewrite tnew_id by auto. cbn [tt_elems]. rewrite eval_prefix by auto. cbn [vbind safe].
    destruct (feqb _ _); [|exact I]. eapply safe_bind; [apply IH|]. intros ts H. cbn [safe]. constructor; [cbn [tt_elems tt_kappa map In]; auto|]. eapply Forall_impl; [|exact H]. cbn [map In]. intros t [H1 H2]. auto.
  Qed.
  Lemma check_safe coeffs : forall mixed ts, Forall (fun t => length (tt_elems F t) = (2 ^ tt_kappa F t)%nat /\ (2 ^ tt_kappa F t <= length coeffs)%nat) ts -> check_row_batched F mixed ts coeffs <> Panic.
  Proof.
    induction mixed as [|m mixed IH]; intros [|t ts] H; cbn [check_row_batched]; try discriminate. inversion H as [|? ? [H1 H2] H3]; subst. unfold tt_fold. rewrite fold_ok by auto. cbn [rbind]. destruct (feqb _ m); [auto|discriminate].
  Qed.
  Lemma make_eqinds_safe ss coeffs : forall ds mixing, (forall d, In d ds -> nth_error ss (snd (fst d)) <> None) -> make_eqinds F E ss coeffs ds mixing <> Panic.
  Proof.
    induction ds as [|d ds IH]; intros [|m mixing] H; cbn [make_eqinds]; try discriminate. unfold make_eqind. assert (Hd := H d (or_introl eq_refl)). destruct (nth_error ss (snd (fst d))) as [[z kappa]|]; [|congruence].
    destruct (E kappa); cbn [rbind]; [|discriminate]. unfold eqind_new. destruct (_ <? _)%nat; cbn [rbind]; [discriminate|]. specialize (IH mixing). destruct (make_eqinds F E ss coeffs ds mixing); cbn [rbind]; try discriminate. intros _. apply IH; [|reflexivity]. intros d' Hd'. apply H. now right.
  Qed.
  Lemma make_claims_ok ss : forall ds i evals, (forall d, In d ds -> nth_error ss (snd (fst d)) <> None) -> exists cl, make_claims F ss i ds evals = Ok cl /\ length cl = Nat.min (length ds) (length evals).
  Proof.
    induction ds as [|d ds IH]; intros i [|e evals] H; cbn [make_claims]; try (exists []; auto; fail). assert (Hd := H d (or_introl eq_refl)). destruct (nth_error ss (snd (fst d))) as [[z kappa]|]; [|congruence].
    destruct (IH (S i) evals) as (cl & -> & Lc); [intros d' Hd'; apply H; now right|]. cbn [rbind]. eexists. split; [reflexivity|]. cbn [length Nat.min]. now rewrite Lc.
  Qed.
  Lemma descs_suffix s : system_ok F L s -> forall d, In d (claim_descs F s) -> nth_error (suffix_descs F s) (snd (fst d)) <> None.
  Proof.
    intros (_ & _ & H) d Hd. apply In_nth with (d := (0%nat, 0%nat, mkClaim F 0 [] 0)) in Hd. destruct Hd as (i & Hi & Ed). destruct (H i Hi) as [_ Hz]. unfold Dof in Hz. rewrite Ed in Hz. congruence.
  Qed.

  (** The verifier of the reduction of any system of claims that was accepted never panics, whatever the proof and the challenges. *)
  Theorem ring_switch_no_panic oracles index claims s : system_new F L oracles index claims = Ok s -> forall tape challenges, vrun (rs_verify F E s) tape challenges <> Panic.
  Proof.
    intros HS. destruct (system_new_spec F L _ _ _ _ HS) as (OK & _). apply (safe_vrun F (fun _ => True)). unfold rs_verify. set (n := length (claim_descs F s)).
    eapply safe_bind; [apply safe_vsamples|]. intros r Lr. cbn beta in Lr. destruct (expand_ok F r) as (mixing & Em & Lm & Hm). rewrite Em. cbn [vbind]. rewrite Lr in Lm.
    destruct (mixed_spec F L s OK mixing) as (b & Eb & Lb & Hb); [rewrite Lm; apply log2_ceil_le|]. rewrite Eb. cbn [vbind]. eapply safe_bind; [apply receive_safe|]. intros ts Hts.
    eapply safe_bind; [apply safe_vsamples|]. intros r2 Lr2. cbn beta in Lr2. destruct (expand_ok F r2) as (coeffs & Ec & Lc & _). rewrite Ec. cbn [vbind safe]. intros evals Le.
    destruct (accumulate_spec F (length (prefix_descs F s)) (claim_to_prefix F s) evals) as (mixed & Emx & _); [rewrite Le; symmetry; apply OK|apply (c2p_bound F L s OK)|]. rewrite Emx. cbn [vbind].
    destruct (check_row_batched F mixed ts coeffs) as [[]| |] eqn:CK; cbn [vbind safe]; auto.
    - destruct (make_eqinds F E _ coeffs _ mixing) as [eqs| |] eqn:EQ; cbn [vbind safe]; auto.
      + destruct (make_claims_ok (suffix_descs F s) (claim_descs F s) 0 evals (descs_suffix s OK)) as (cl & -> & _). cbn [vbind safe]. exact I.
      + revert EQ. apply make_eqinds_safe. now apply descs_suffix.
    - revert CK. apply check_safe. eapply Forall_impl; [|exact Hts]. cbn beta. intros t [H1 H2]. split; [exact H1|]. rewrite Lc, Lr2. apply pow2_le. unfold max_claim_kappa.
      assert (H := proj1 (list_max_le (map (@length F) (prefix_descs F s)) _) (le_n _)). rewrite Forall_forall in H. now apply H.
  Qed.

  (** *** completeness *)
  (** The partial evaluations the prover computes: at the suffix [z] of a claim, those of the multilinear over the subfield that is packed
      in the committed values [P].  A multilinear with fewer than [2^kappa] values is repeated in the packed value. *)
  Definition honest_partial {kappa} (X : ext F kappa) (P : nat -> F) (z : list F) (pe : list F) : Prop :=
    exists m, (m <= kappa)%nat /\ (forall x j, (x < 2 ^ length z)%nat -> (j < 2 ^ kappa)%nat -> co X j (P x) = co X (j mod 2 ^ m) (P x)) /\
      pe = map (fun j => sumn (2 ^ length z) (fun x => eqw z x * co X j (P x))) (seq 0 (2 ^ m)).

  Lemma rmap_spec {A B} (f : A -> res B) (R : nat -> B -> Prop) : forall l, (forall i x, nth_error l i = Some x -> exists y, f x = Ok y /\ R i y) ->
    exists ys, rmap f l = Ok ys /\ length ys = length l /\ forall i, (i < length l)%nat -> exists y, nth_error ys i = Some y /\ R i y.
  Proof.
    intros l. revert R. induction l as [|x l IH]; intros R H; cbn [rmap]; [exists []; repeat split; auto; cbn; intros; lia|].
    destruct (H 0%nat x eq_refl) as (y & Ey & Ry). rewrite Ey. cbn [rbind]. destruct (IH (fun i => R (S i))) as (ys & -> & Ly & Hy); [intros i a Ha; now apply (H (S i))|]. cbn [rbind].
    exists (y :: ys). cbn [length]. repeat split; [lia|]. intros [|i] Hi; cbn [nth_error]; [eauto|apply Hy; lia].
  Qed.
  Lemma combine_nth_error {A B} (l : list A) : forall (m : list B) i, (length l <= length m)%nat -> (i < length l)%nat ->
    exists a b, nth_error l i = Some a /\ nth_error m i = Some b /\ nth_error (combine l m) i = Some (a, b).
  Proof.
    induction l as [|x l IH]; intros [|y m] i Hl Hi; cbn in *; try lia. destruct i as [|i]; cbn; [eauto|apply IH; lia].
  Qed.
  Lemma sends_agree {A B} (Q : A -> B -> Prop) (p : pproto F A) (v : vproto F B) : forall ls buf, agree Q (buf ++ concat ls) p v -> agree Q buf (pbind (psend_all F ls) (fun _ => p)) v.
  Proof.
    induction ls as [|l ls IH]; intros buf H; cbn [psend_all pbind concat] in *; [now rewrite app_nil_r in H|]. apply agree_send. apply IH. now rewrite <- app_assoc.
  Qed.
  Lemma receive_agree {A B} (Q : A -> B -> Prop) (p : pproto F A) : forall prefixes expected ts (k : list (tten F) -> vproto F B), length expected = length prefixes -> length ts = length prefixes ->
    (forall g, (g < length prefixes)%nat -> exists t, nth_error ts g = Some t /\ received F E (nth g prefixes []) (nth g expected 0) t) ->
    agree Q [] p (k ts) -> agree Q (concat (map (tt_elems F) ts)) p (vbind (receive_tensors F E prefixes expected) k).
  Proof.
    induction prefixes as [|pr prefixes IH]; intros [|ex expected] [|t ts] k He Ht H HA; try discriminate; cbn [receive_tensors]; [exact HA|].
    destruct (H 0%nat) as (t0 & Et & X & elems & EX & -> & Le & Ev); [cbn; lia|]. cbn [nth_error nth] in *. injection Et as ->.
    apply agree_assoc_v. cbn [map concat tt_elems vbind]. apply agree_read; [rewrite app_length; lia|]. rewrite <- Le. rewrite firstn_app, Nat.sub_diag, firstn_all, firstn_O, app_nil_r. rewrite skipn_app, Nat.sub_diag, skipn_all, skipn_O. cbn [app].
    unfold tt_new. rewrite EX. cbn [vbind]. rewrite tnew_id by auto. cbn [tt_elems]. rewrite eval_prefix by auto. cbn [vbind]. rewrite Ev, feqb_refl. apply agree_assoc_v. cbn [vbind].
    apply (IH expected ts); [cbn in He; lia|cbn in Ht; lia| |exact HA]. intros g Hg. apply (H (S g)). cbn. lia.
  Qed.
  Lemma check_ok coeffs : forall mixed ts, length mixed = length ts -> (forall g, (g < length ts)%nat -> exists t, nth_error ts g = Some t /\ tt_fold F t coeffs = Ok (nth g mixed 0)) -> check_row_batched F mixed ts coeffs = Ok tt.
  Proof.
    induction mixed as [|m mixed IH]; intros [|t ts] Hl H; try discriminate; cbn [check_row_batched]; [reflexivity|]. destruct (H 0%nat) as (t0 & Et & Ef); [cbn; lia|]. injection Et as <-. rewrite Ef. cbn [rbind nth]. rewrite feqb_refl.
    apply IH; [cbn in Hl; lia|]. intros g Hg. apply (H (S g)). cbn. lia.
  Qed.
  Lemma make_eqinds_ok ss coeffs : forall ds mixing, (length ds <= length mixing)%nat ->
    (forall d, In d ds -> exists z kappa X, nth_error ss (snd (fst d)) = Some (z, kappa) /\ E kappa = Some X /\ (2 ^ kappa <= length coeffs)%nat) -> exists eqs, make_eqinds F E ss coeffs ds mixing = Ok eqs.
  Proof.
    induction ds as [|d ds IH]; intros [|m mixing] Hl H; cbn [make_eqinds]; try (eexists; reflexivity). destruct (H d (or_introl eq_refl)) as (z & kappa & X & Hz & EX & LX). unfold make_eqind. rewrite Hz, EX. unfold eqind_new. destruct (Nat.ltb_spec (length coeffs) (2 ^ kappa)); [lia|]. cbn [rbind].
    destruct (IH mixing) as (eqs & ->); [cbn in Hl; lia|intros d' Hd'; apply H; now right|]. cbn [rbind]. eauto.
  Qed.
  (** adding scaled elements to their prefixes *)
  Definition tgt (ps : list (list F)) (g : nat) (els : list F) : option (tten F) := match E (length (nth g ps [])) with Some X => Some (mkTT F (length (nth g ps [])) X els) | None => None end.
  Lemma mix_fold ps : forall c2p ts (tabs : nat -> list F) b (els : nat -> list F),
    length ts = length c2p -> Forall (fun p => (p < length ps)%nat) c2p -> (forall g, (g < length ps)%nat -> E (length (nth g ps [])) <> None) ->
    length b = length ps -> (forall g, (g < length ps)%nat -> nth_error b g = tgt ps g (els g) /\ length (els g) = (2 ^ length (nth g ps []))%nat) ->
    (forall i, (i < length c2p)%nat -> nth_error ts i = tgt ps (nth i c2p 0%nat) (tabs i) /\ length (tabs i) = (2 ^ length (nth (nth i c2p 0%nat) ps []))%nat) ->
    exists b', fold_left (fun acc tp => try b <- acc;
      match nth_error b (snd tp) with
      | None => Panic
      | Some x => if (tt_kappa F x =? tt_kappa F (fst tp))%nat then Ok (upd b (snd tp) (mkTT F (tt_kappa F x) (tt_ext F x) (tadd F (tt_elems F x) (tt_elems F (fst tp))))) else Err
      end) (combine ts c2p) (Ok b) = Ok b' /\ length b' = length ps /\
      forall g, (g < length ps)%nat -> exists el, nth_error b' g = tgt ps g el /\ length el = (2 ^ length (nth g ps []))%nat /\
        forall j, (j < 2 ^ length (nth g ps []))%nat -> nth j el 0 = nth j (els g) 0 + sumn (length c2p) (fun i => if (nth i c2p 0%nat =? g)%nat then nth j (tabs i) 0 else 0).
  Proof.
    induction c2p as [|p c2p IH]; intros [|t ts] tabs b els Hl Hp SUP Lb Hb Ht; try discriminate.
    - exists b. repeat split; auto. intros g Hg. exists (els g). destruct (Hb g Hg). repeat split; auto. intros j Hj. cbn [length]. rewrite sumn_0. ring.
    - cbn [combine fold_left rbind fst snd]. inversion Hp as [|? ? Hp1 Hp2]; subst. destruct (Hb p Hp1) as [Nb Ln]. destruct (Ht 0%nat) as [Nt Lt]; [cbn; lia|]. cbn [nth_error nth] in Nt, Lt. unfold tgt in Nb, Nt. specialize (SUP p Hp1) as SP. destruct (E (length (nth p ps []))) as [X|] eqn:EX; [|congruence].
      rewrite Nb. injection Nt as ->. cbn [tt_kappa tt_ext tt_elems]. rewrite Nat.eqb_refl.
      destruct (IH ts (fun i => tabs (S i)) (upd b p (mkTT F (length (nth p ps [])) X (tadd F (els p) (tabs 0%nat)))) (fun g => if (g =? p)%nat then tadd F (els p) (tabs 0%nat) else els g)) as (b' & Eb & Lb' & Hb'); auto.
      + now rewrite upd_length.
      + intros g Hg. destruct (Nat.eqb_spec g p) as [->|N].
        * rewrite nth_error_upd_eq by lia. unfold tgt. rewrite EX. split; [reflexivity|]. rewrite tadd_length; lia.
        * rewrite nth_error_upd_ne by auto. now apply Hb.
      + intros i Hi. apply (Ht (S i)). cbn. lia.
      + exists b'. split; [exact Eb|]. split; [exact Lb'|]. intros g Hg. destruct (Hb' g Hg) as (el & N & Le & H). exists el. repeat split; auto. intros j Hj. rewrite H by auto. cbn [length]. rewrite sumn_head. cbn [nth].
        destruct (Nat.eqb_spec g p) as [->|Nq]; [rewrite Nat.eqb_refl, tadd_nth by lia; ring|]. destruct (Nat.eqb_spec p g) as [->|]; [congruence|]. ring.
  Qed.

  Section Honest.
    Variable s : system F.
    Hypothesis OK : system_ok F L s.
    Variable committed : nat -> nat -> F.
    Variable partial : nat -> list F -> list F.
    Notation n := (length (claim_descs F s)).
    Notation ps := (prefix_descs F s).
    Hypothesis SUP : forall g, (g < length ps)%nat -> E (length (nth g ps [])) <> None.
    Hypothesis HON : forall i X, (i < n)%nat -> E (length (Pof F s i)) = Some X -> honest_partial X (committed (Kof F s i)) (Zof F s i) (partial (Kof F s i) (Zof F s i)).
    Hypothesis TRUE : forall i X, (i < n)%nat -> E (length (Pof F s i)) = Some X -> mle (part F X (committed (Kof F s i)) (Zof F s i)) (Pof F s i) = Vof F s i.

    (** the partial evaluation of claim [i], seen in the extension of prefix [g] *)
    Definition ptab (g i : nat) : list F := match E (length (nth g ps [])) with Some X => map (part F X (committed (Kof F s i)) (Zof F s i)) (seq 0 (2 ^ length (nth g ps []))) | None => [] end.
    Lemma ptab_length g i : (g < length ps)%nat -> length (ptab g i) = (2 ^ length (nth g ps []))%nat.
    Proof. intros Hg. unfold ptab. destruct (E _) eqn:EX; [now rewrite map_length, seq_length|]. now apply SUP in EX. Qed.
    Lemma Gof_lt i : (i < n)%nat -> (Gof F s i < length ps)%nat.
    Proof. intros Hi. destruct OK as (_ & _ & H). now apply H. Qed.

    Lemma partials_ok : exists ts, rmap (partial_elems F E partial (suffix_descs F s)) (claim_descs F s) = Ok ts /\ length ts = n /\
      forall i, (i < n)%nat -> nth_error ts i = tgt ps (Gof F s i) (ptab (Gof F s i) i).
    Proof.
      destruct (rmap_spec (partial_elems F E partial (suffix_descs F s)) (fun i t => Some t = tgt ps (Gof F s i) (ptab (Gof F s i) i)) (claim_descs F s)) as (ts & Et & Lt & Ht).
      - intros i d Hd. assert (Hi : (i < n)%nat) by (apply nth_error_Some; congruence). assert (Ed : Dof F s i = d) by (unfold Dof; now apply nth_error_nth).
        unfold partial_elems. destruct OK as (_ & _ & H). destruct (H i Hi) as [HG Hz]. rewrite Ed in Hz. rewrite Hz. assert (KE : fst (fst d) = Kof F s i) by (unfold Kof; now rewrite Ed). rewrite KE.
        unfold tt_new. specialize (HON i). unfold tgt, ptab. change (nth (Gof F s i) ps []) with (Pof F s i). assert (SP := SUP _ HG). change (nth (Gof F s i) ps []) with (Pof F s i) in SP.
        destruct (E (length (Pof F s i))) as [X|] eqn:EX; [|congruence]. eexists. split; [reflexivity|]. f_equal. f_equal.
        destruct (HON X Hi eq_refl) as (m & Hm & PER & ->). set (pe := map _ (seq 0 (2 ^ m))). assert (Lp : length pe = (2 ^ m)%nat) by (unfold pe; now rewrite map_length, seq_length).
        assert (PM : (2 ^ m <= 2 ^ length (Pof F s i))%nat) by now apply pow2_le. pose proof (pow2_pos m) as MP. rewrite Lp, Nat.min_r by exact PM. assert (FA : firstn (2 ^ m) pe = pe) by (rewrite <- Lp; apply firstn_all). rewrite !FA, !Lp.
        assert (NP : forall j, (j < 2 ^ length (Pof F s i))%nat -> nth (j mod 2 ^ m) pe 0 = part F X (committed (Kof F s i)) (Zof F s i) j).
        { intros j Hj. unfold pe. rewrite (nth_map_seq (fun j => sumn (2 ^ length (Zof F s i)) (fun x => eqw (Zof F s i) x * co X j (committed (Kof F s i) x)))) by (apply Nat.mod_upper_bound; lia). unfold part. apply sumn_ext. intros x Hx. f_equal. symmetry. now apply PER. }
        assert (EQ : (if (2 ^ m <? 2 ^ length (Pof F s i))%nat then map (fun j => nth (j mod 2 ^ m) pe 0) (seq 0 (if (2 ^ m =? 0)%nat then 0%nat else 2 ^ length (Pof F s i))) else pe) = map (part F X (committed (Kof F s i)) (Zof F s i)) (seq 0 (2 ^ length (Pof F s i)))).
        { destruct (Nat.ltb_spec (2 ^ m) (2 ^ length (Pof F s i))).
          - destruct (Nat.eqb_spec (2 ^ m) 0); [lia|]. apply map_ext_in. intros j Hj. apply in_seq in Hj. apply NP. lia.
          - assert (PE : (2 ^ m = 2 ^ length (Pof F s i))%nat) by lia. unfold pe, part. now rewrite PE. }
        rewrite EQ. rewrite tnew_id; [reflexivity|]. now rewrite map_length, seq_length.
      - exists ts. repeat split; auto. intros i Hi. destruct (Ht i Hi) as (t & Nt & R). congruence.
    Qed.
    Lemma scaled_ok ts mixing : length ts = n -> (n <= length mixing)%nat -> (forall i, (i < n)%nat -> nth_error ts i = tgt ps (Gof F s i) (ptab (Gof F s i) i)) ->
      exists sc, scale_elems F ts mixing = Ok sc /\ length sc = n /\ forall i, (i < n)%nat -> nth_error sc i = tgt ps (Gof F s i) (scale_vertical F (ptab (Gof F s i) i) (nth i mixing 0)).
    Proof.
      intros Lt Lm Ht. unfold scale_elems. destruct (Nat.ltb_spec (length mixing) (length ts)); [lia|]. eexists. split; [reflexivity|]. split; [rewrite map_length, combine_length; lia|]. intros i Hi.
      destruct (combine_nth_error ts mixing i) as (t & m & Nt & Nm & Nc); [lia|lia|]. rewrite nth_error_map, Nc. cbn [option_map fst snd]. rewrite (Ht i Hi) in Nt. unfold tgt in *. destruct (E _) as [X|]; [|discriminate]. injection Nt as <-. cbn [tt_kappa tt_ext tt_elems].
      now rewrite (nth_error_nth _ _ 0 Nm).
    Qed.
    (** the mixed partial evaluations of a group *)
    Definition mixval (mixing : list F) (g j : nat) : F := sumn n (fun i => if (Gof F s i =? g)%nat then nth i mixing 0 * nth j (ptab g i) 0 else 0).
    Lemma mixed_ok sc mixing : length sc = n -> (forall i, (i < n)%nat -> nth_error sc i = tgt ps (Gof F s i) (scale_vertical F (ptab (Gof F s i) i) (nth i mixing 0))) ->
      exists mx, mix_elems F E sc ps (claim_to_prefix F s) = Ok mx /\ length mx = length ps /\
        forall g, (g < length ps)%nat -> exists el, nth_error mx g = tgt ps g el /\ length el = (2 ^ length (nth g ps []))%nat /\ forall j, (j < 2 ^ length (nth g ps []))%nat -> nth j el 0 = mixval mixing g j.
    Proof.
      intros Lsc Hsc. assert (O1 : length (claim_to_prefix F s) = n) by apply OK. unfold mix_elems. rewrite Lsc, O1, Nat.eqb_refl. cbn [negb].
      destruct (rmap_spec (fun p => tt_zero F E (length p)) (fun g t => Some t = tgt ps g (tzero F (length (nth g ps [])))) ps) as (zs & Ez & Lz & Hz).
      { intros g p Hp. assert (Hg : (g < length ps)%nat) by (apply nth_error_Some; congruence). unfold tt_zero, tgt. rewrite (nth_error_nth _ _ [] Hp). assert (SP := SUP g Hg). rewrite (nth_error_nth _ _ [] Hp) in SP. destruct (E (length p)); [eauto|congruence]. }
      rewrite Ez. cbn [rbind].
      destruct (mix_fold ps (claim_to_prefix F s) sc (fun i => scale_vertical F (ptab (Gof F s i) i) (nth i mixing 0)) zs (fun g => tzero F (length (nth g ps [])))) as (b & Eb & Lb & Hb).
      - congruence.
      - exact (c2p_bound F L s OK).
      - exact SUP.
      - exact Lz.
      - intros g Hg. destruct (Hz g Hg) as (t & Nt & R). split; [congruence|]. unfold tzero. apply repeat_length.
      - intros i Hi. rewrite O1 in Hi. split; [now apply Hsc|]. rewrite scale_v_length. apply ptab_length. now apply Gof_lt.
      - exists b. split; [exact Eb|]. split; [exact Lb|]. intros g Hg. destruct (Hb g Hg) as (el & Ne & Le & H). exists el. repeat split; auto. intros j Hj. rewrite H by auto. unfold tzero. rewrite nth_repeat, O1. unfold mixval.
        transitivity (sumn n (fun i => if (nth i (claim_to_prefix F s) 0 =? g)%nat then nth j (scale_vertical F (ptab (Gof F s i) i) (nth i mixing 0)) 0 else 0)); [ring|]. apply sumn_ext. intros i Hi. change (nth i (claim_to_prefix F s) 0%nat) with (Gof F s i). destruct (Nat.eqb_spec (Gof F s i) g) as [->|]; [|reflexivity].
        rewrite scale_v_nth. ring.
    Qed.
    Theorem honest_agrees : agree (fun a b => a = b /\ all_reduced_true F committed b) [] (rs_prove F E s partial) (rs_verify F E s).
    Proof.
      assert (O1 : length (claim_to_prefix F s) = n) by apply OK. unfold rs_prove, rs_verify. apply psamples_agree. intros r Lr. destruct (expand_ok F r) as (mixing & Em & Lm & _). rewrite Em. cbn [pbind vbind]. rewrite Lr in Lm.
      assert (LM : (n <= length mixing)%nat) by (rewrite Lm; apply log2_ceil_le).
      destruct partials_ok as (ts & Et & Lt & Ht). rewrite Et. cbn [pbind]. destruct (scaled_ok ts mixing Lt LM Ht) as (sc & Es & Ls & Hs). rewrite Es. cbn [pbind]. destruct (mixed_ok sc mixing Ls Hs) as (mx & Emx & Lmx & Hmx). rewrite Emx. cbn [pbind].
      destruct (mixed_spec F L s OK mixing LM) as (b & Eb & Lb & Hb). rewrite Eb. cbn [vbind]. apply sends_agree. cbn [app]. apply receive_agree; [exact Lb|exact Lmx| |].
      { intros g Hg. destruct (Hmx g Hg) as (el & Ne & Le & He). unfold tgt in Ne. assert (SP := SUP g Hg). destruct (E (length (nth g ps []))) as [X|] eqn:EX; [|congruence]. eexists. split; [exact Ne|]. exists X, el. repeat split; auto.
        rewrite Hb by auto. unfold mle. rewrite (sumn_ext F _ _ (fun x => sumn n (fun i => (if (Gof F s i =? g)%nat then nth i mixing 0 * nth x (ptab g i) 0 else 0) * eqw (nth g ps []) x))) by (intros x Hx; rewrite (He x Hx); unfold mixval; now rewrite sumn_scale_r).
        rewrite sumn_swap. apply sumn_ext. intros i Hi. destruct (Nat.eqb_spec (Gof F s i) g) as [Gi|]; [|apply sumn_zero; intros; ring].
        assert (T := fun Y => TRUE i Y Hi). unfold Pof in T. rewrite Gi in T. rewrite <- (T X EX). unfold mle. rewrite <- sumn_scale_r. apply sumn_ext. intros x Hx. unfold ptab. rewrite EX, nth_map_seq by auto. ring. }
      apply psamples_agree. intros r2 Lr2. destruct (expand_ok F r2) as (coeffs & Ec & Lc & _). rewrite Ec. cbn [pbind vbind]. rewrite Lr2 in Lc.
      assert (KL : forall g, (g < length ps)%nat -> (2 ^ length (nth g ps []) <= length coeffs)%nat) by (intros g Hg; rewrite Lc; apply pow2_le; now apply kappa_le).
      destruct (rmap_spec (fun t => tt_fold F t coeffs) (fun i v => forall X, E (length (nth (Gof F s i) ps [])) = Some X -> v = vf F (length (nth (Gof F s i) ps [])) X coeffs (fun j => nth i mixing 0 * nth j (ptab (Gof F s i) i) 0)) sc) as (evals & Ee & Lev & Hev).
      { intros i t Nt. assert (Hi : (i < n)%nat) by (rewrite <- Ls; apply nth_error_Some; congruence). rewrite (Hs i Hi) in Nt. unfold tgt in Nt. assert (HG := Gof_lt i Hi). assert (SP := SUP _ HG). destruct (E (length (nth (Gof F s i) ps []))) as [X|] eqn:EX; [|congruence]. injection Nt as <-.
        unfold tt_fold. cbn [tt_kappa tt_ext tt_elems]. rewrite fold_ok; [|rewrite scale_v_length; now apply ptab_length|now apply KL]. eexists. split; [reflexivity|]. intros X' EX'. injection EX' as <-. rewrite vfold_vf. apply vf_ext. intros j Hj. rewrite scale_v_nth. ring. }
      rewrite Ee. cbn [pbind]. rewrite Ls in Lev. rewrite <- Lev. cbn [vbind]. apply agree_msg. cbn [pbind].
      destruct (accumulate_spec F (length ps) (claim_to_prefix F s) evals) as (mixed & Eac & Lac & Hac); [congruence|exact (c2p_bound F L s OK)|]. rewrite Eac. cbn [vbind].
      assert (EV : forall i X, (i < n)%nat -> E (length (nth (Gof F s i) ps [])) = Some X -> nth i evals 0 = vf F (length (nth (Gof F s i) ps [])) X coeffs (fun j => nth i mixing 0 * nth j (ptab (Gof F s i) i) 0)).
      { intros i X Hi EX. destruct (Hev i) as (v & Nv & R); [lia|]. rewrite (nth_error_nth _ _ 0 Nv). now apply R. }
      rewrite check_ok; [|congruence|].
      2:{ intros g Hg. rewrite Lmx in Hg. destruct (Hmx g Hg) as (el & Ne & Le & He). unfold tgt in Ne. assert (SP := SUP g Hg). destruct (E (length (nth g ps []))) as [X|] eqn:EX; [|congruence]. eexists. split; [exact Ne|]. unfold tt_fold. cbn [tt_kappa tt_ext tt_elems]. rewrite fold_ok by (auto; now apply KL). f_equal.
          rewrite vfold_vf, Hac, O1 by auto. rewrite (vf_ext F _ X coeffs _ _ He). unfold mixval. rewrite (vf_sum F _ X coeffs n (fun i j => if (Gof F s i =? g)%nat then nth i mixing 0 * nth j (ptab g i) 0 else 0)). apply sumn_ext. intros i Hi. change (nth i (claim_to_prefix F s) 0%nat) with (Gof F s i).
          destruct (Nat.eqb_spec (Gof F s i) g) as [Gi|]; [|apply vf_0]. assert (R := fun Y => EV i Y Hi). rewrite Gi in R. rewrite (R X EX). reflexivity. }
      cbn [vbind].
      assert (DS : forall d, In d (claim_descs F s) -> exists i, (i < n)%nat /\ d = Dof F s i).
      { intros d Hd. apply In_nth with (d := (0%nat, 0%nat, mkClaim F 0 [] 0)) in Hd. destruct Hd as (i & Hi & Ed). exists i. split; [exact Hi|]. now symmetry. }
      destruct (make_eqinds_ok (suffix_descs F s) coeffs (claim_descs F s) mixing LM) as (eqs & Eeq).
      { intros d Hd. destruct (DS d Hd) as (i & Hi & ->). destruct OK as (_ & _ & H). destruct (H i Hi) as [HG Hz]. assert (SP := SUP _ HG). change (nth (Gof F s i) ps []) with (Pof F s i) in SP. destruct (E (length (Pof F s i))) as [X|] eqn:EX; [|congruence].
        exists (Zof F s i), (length (Pof F s i)), X. repeat split; auto. now apply (KL _ HG). }
      destruct (make_claims_ok (suffix_descs F s) (claim_descs F s) 0 evals (descs_suffix s OK)) as (cl & Ecl & Lcl). rewrite Eeq, Ecl. cbn [pbind vbind]. constructor. split; [reflexivity|].
      intros c Hc. cbn [rc_claims] in Hc. apply In_nth_error in Hc. destruct Hc as (i & Nc). assert (Hi : (i < n)%nat) by (assert (i < length cl)%nat by (apply nth_error_Some; congruence); lia).
      destruct OK as (_ & _ & H). destruct (H i Hi) as [HG Hz]. assert (ND : nth_error (claim_descs F s) i = Some (Dof F s i)) by (apply nth_error_nth'; exact Hi).
      destruct (make_eqinds_spec F E _ _ _ _ _ Eeq LM i _ ND) as (z & kappa & X & Hz' & EX & LX & Na). rewrite Hz in Hz'. injection Hz' as <- <-.
      rewrite (make_claims_spec F _ _ _ _ _ Ecl (eq_ind_r (fun l => (n <= l)%nat) (le_n _) Lev) i _ _ _ ND Hz) in Nc. injection Nc as <-. cbn [Nat.add].
      exists (mkEqInd F (length (Pof F s i)) X (Zof F s i) coeffs (nth i mixing 0)), (eqind_value F (mkEqInd F (length (Pof F s i)) X (Zof F s i) coeffs (nth i mixing 0))). cbn [rc_transparents sc_transparent sc_n_vars sc_committed sc_sum]. split; [exact Na|]. split.
      - intros x Hx. rewrite (eqind_evaluate_correct F C2) by exact LX. cbn [ei_z]. rewrite vertex_length, Nat.eqb_refl. now rewrite mle_on_cube.
      - rewrite (EV i X Hi EX). change (nth (Gof F s i) ps []) with (Pof F s i). rewrite (vf_ext F _ X coeffs _ (fun j => nth i mixing 0 * part F X (committed (Kof F s i)) (Zof F s i) j)).
        + rewrite vf_part. reflexivity.
        + intros j Hj. f_equal. unfold ptab. change (nth (Gof F s i) ps []) with (Pof F s i). rewrite EX. now rewrite nth_map_seq.
    Qed.
  End Honest.

  (** C65: an honest prover.  If all claims are true, all packing degrees are supported and the partial evaluations the prover starts
      from are those of the committed multilinears, then prover and verifier agree, the proof is read completely, and the reduced claims
      are true. *)
  Theorem ring_switch_complete oracles index claims s committed partial : system_new F L oracles index claims = Ok s ->
    (forall o, In (Some o) oracles -> o_committed o = true -> (o_level o <= L)%nat -> E (L - o_level o) <> None) ->
    (forall c, In c claims -> claim_true F L E committed oracles index c) ->
    (forall c o k X, In c claims -> nth_error oracles (ec_id F c) = Some (Some o) -> index (ec_id F c) = Some k -> E (L - o_level o) = Some X ->
      let z := snd (split_point F (L - o_level o) (ec_point F c)) in honest_partial X (committed k) z (partial k z)) ->
    (forall challenges : nat -> F, exists m out proof, prun (rs_prove F E s partial) (map challenges (seq 0 m)) = Ok (out, proof, [])) /\
    forall challenges out proof rest, prun (rs_prove F E s partial) challenges = Ok (out, proof, rest) ->
      all_reduced_true F committed out /\ forall extra, vrun (rs_verify F E s) (proof ++ extra) challenges = Ok (out, extra, rest).
  Proof.
    intros HS SUP TRUE HON. destruct (system_new_spec F L _ _ _ _ HS) as (OK & PS & sorted & PM & Ls & HC).
    assert (KEY : forall i, (i < length (claim_descs F s))%nat -> exists c o k, In c claims /\ nth_error oracles (ec_id F c) = Some (Some o) /\ index (ec_id F c) = Some k /\ Kof F s i = k /\ Vof F s i = ec_eval F c /\ split_point F (L - o_level o) (ec_point F c) = (Pof F s i, Zof F s i) /\ length (Pof F s i) = (L - o_level o)%nat).
    { intros i Hi. destruct (nth_error sorted i) as [c|] eqn:Hc; [|apply nth_error_None in Hc; lia]. destruct (HC i c Hc) as (o & k & HD & Hk & Ho & _ & Hl & Hsp). exists c, o, k.
      split; [apply (Permutation_in _ PM); now apply nth_error_In in Hc|]. repeat split; auto; [unfold Kof; now rewrite HD|unfold Vof; now rewrite HD|]. change (Pof F s i) with (fst (Pof F s i, Zof F s i)). rewrite <- Hsp. apply split_point_length. }
    assert (A : agree (fun a b => a = b /\ all_reduced_true F committed b) [] (rs_prove F E s partial) (rs_verify F E s)).
    { apply honest_agrees; auto.
      - intros g Hg. destruct (PS (nth g (prefix_descs F s) [])) as (o & Ho & Hc & Hl & ->); [now apply nth_In|]. now apply SUP.
      - intros i X Hi EX. destruct (KEY i Hi) as (c & o & k & Hc & Ho & Hk & HK & HV & Hsp & HP). revert X EX. rewrite HP. intros X EX. rewrite HK. assert (R := HON c o k X Hc Ho Hk EX). cbn zeta in R. now rewrite Hsp in R.
      - intros i X Hi EX. destruct (KEY i Hi) as (c & o & k & Hc & Ho & Hk & HK & HV & Hsp & HP). destruct (TRUE c Hc) as (o' & k' & X' & Ho' & Hk' & EX' & T). rewrite Ho in Ho'. injection Ho' as <-. rewrite Hk in Hk'. injection Hk' as <-.
        revert X EX. rewrite HP. intros X EX. rewrite EX in EX'. injection EX' as <-. rewrite unpacked_eval, Hsp in T. cbn [fst snd] in T. now rewrite HK, HV. }
    split.
    - exact (agree_total F _ _ _ _ A).
    - intros cs out proof rest HR. split.
      + destruct (agree_run F _ _ _ _ A cs out proof rest HR []) as (b & _ & -> & HT). exact HT.
      + intros extra. destruct (agree_run F _ _ _ _ A cs out proof rest HR extra) as (b & EV & -> & HT). exact EV.
  Qed.
End Complete.
