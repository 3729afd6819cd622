(** Properties of the challenger (C34, C59) and of hashing through a block buffer. *)
Require Import Coq.NArith.NArith Coq.Arith.Arith Coq.Lists.List Coq.Bool.Bool Lia.
Require Import Verif.Base.Sums Verif.Base.Lists Verif.Transcript.SerModel Verif.Transcript.SerProofs.
Require Import Verif.Transcript.ChallengerModel Verif.Transcript.ChallengerSpec.
Import ListNotations.
Local Close Scope N_scope. Local Open Scope nat_scope.

Lemma some_inj' {A} (a b : A) : Some a = Some b -> a = b.
Proof. now intros [= ->]. Qed.

Lemma write_at_length b i s : i + length s <= length b -> length (write_at b i s) = length b.
Proof. intros. unfold write_at. rewrite !app_length, firstn_length, skipn_length. lia. Qed.

Lemma write_at_firstn b i s : i + length s <= length b ->
  firstn (i + length s) (write_at b i s) = firstn i b ++ s.
Proof.
  intros. unfold write_at. rewrite app_assoc, firstn_app.
  assert (L : length (firstn i b ++ s) = i + length s) by (rewrite app_length, firstn_length; lia).
  rewrite L, Nat.sub_diag, app_nil_r. rewrite <- L at 1. apply firstn_all.
Qed.

Section Challenger.
  Variable hash : list byte -> list byte.
  Variable osz bsz : nat.
  Hypothesis hash_len : forall x, length (hash x) = osz.
  Hypothesis osz_pos : 0 < osz.
  Hypothesis bsz_pos : 0 < bsz.

  Definition binv (o : blockbuf) : Prop := bb_index o < bsz /\ length (bb_buffer o) = bsz.
  Definition content (o : blockbuf) : list byte := bb_hasher o ++ firstn (bb_index o) (bb_buffer o).

  Lemma put_slice_ok src : forall fuel o, length src <= fuel -> binv o ->
    exists o', put_slice bsz fuel o src = Some o' /\ binv o' /\ content o' = content o ++ src.
  Proof.
    remember (length src) as n eqn:Hn. assert (Hle : length src <= n) by lia. clear Hn.
    revert src Hle. induction n; intros src Hle fuel o Hf [Hi Hb].
    - destruct src; [|cbn in Hle; lia]. exists o. destruct fuel; cbn; rewrite app_nil_r; repeat split; auto.
    - destruct src as [|x src].
      { exists o. destruct fuel; cbn; rewrite app_nil_r; repeat split; auto. }
      destruct fuel as [|fuel]; [lia|]. set (m := x :: src) in *.
      change (put_slice bsz (S fuel) o m) with
        (let cnt := Nat.min (length m) (bsz - bb_index o) in
         do o2 <- advance_mut bsz cnt
           (BlockBuf (bb_index o) (write_at (bb_buffer o) (bb_index o) (firstn cnt m)) (bb_hasher o)) cnt;
         put_slice bsz fuel o2 (skipn cnt m)).
      cbv zeta. set (cnt := Nat.min (length m) (bsz - bb_index o)).
      assert (Hc : 1 <= cnt) by (unfold cnt, m; cbn [length]; lia).
      assert (Hl : length (firstn cnt m) = cnt) by (rewrite firstn_length; unfold cnt; lia).
      assert (Hw : bb_index o + length (firstn cnt m) <= length (bb_buffer o)).
      { rewrite Hl, Hb. unfold cnt. lia. }
      pose proof (write_at_length _ _ _ Hw) as WL. pose proof (write_at_firstn _ _ _ Hw) as WF.
      rewrite Hl in WF.
      set (b' := write_at (bb_buffer o) (bb_index o) (firstn cnt m)) in *.
      assert (A : exists o2, advance_mut bsz cnt (BlockBuf (bb_index o) b' (bb_hasher o)) cnt = Some o2 /\
        binv o2 /\ content o2 = content o ++ firstn cnt m).
      { destruct cnt as [|c] eqn:Ec; [lia|].
        cbn [advance_mut Nat.eqb bb_index bb_buffer bb_hasher].
        replace (Nat.min (bsz - bb_index o) (S c)) with (S c) by lia. rewrite Nat.sub_diag.
        destruct (Nat.eqb_spec (bb_index o + S c) bsz) as [E|E].
        - eexists. split; [destruct c; reflexivity|]. unfold binv, content, flush.
          cbn [bb_index bb_buffer bb_hasher]. split; [split; [lia|congruence]|].
          rewrite WF. cbn [firstn]. rewrite app_nil_r. now rewrite app_assoc.
        - eexists. split; [destruct c; reflexivity|]. unfold binv, content.
          cbn [bb_index bb_buffer bb_hasher]. split; [split; [lia|congruence]|].
          rewrite WF. now rewrite app_assoc. }
      destruct A as (o2 & -> & I2 & C2). cbn [obind].
      destruct (IHn (skipn cnt m)) with (fuel := fuel) (o := o2) as (o' & E' & I' & C'); auto.
      + rewrite skipn_length. lia.
      + lia.
      + exists o'. split; [exact E'|]. split; [exact I'|]. rewrite C', C2, <- app_assoc. f_equal.
        apply firstn_skipn.
  Qed.

  Definition sinv (s : blockbuf) : Prop := bb_index s <= osz /\ length (bb_buffer s) = osz.

  Lemma advance_ok s cnt : sinv s -> cnt <= osz - bb_index s ->
    advance hash osz s cnt = Some (if bb_index s =? osz then fill_buffer hash s
      else BlockBuf (bb_index s + cnt) (bb_buffer s) (bb_hasher s)).
  Proof.
    intros [Hi Hb] Hc. unfold advance. destruct (Nat.eqb_spec (bb_index s) osz) as [E|E].
    - replace cnt with 0 by lia. reflexivity.
    - destruct cnt as [|c].
      + cbn. rewrite Nat.add_0_r. now destruct s.
      + replace (2 * S c) with (S (2 * c + 1)) by lia. cbn [advance_loop Nat.eqb].
        replace (Nat.min (osz - bb_index s) (S c)) with (S c) by lia. cbn [Nat.eqb].
        rewrite Nat.sub_diag. replace (2 * c + 1) with (S (2 * c)) by lia. reflexivity.
  Qed.

  Notation sbytes := (sponge_bytes hash).

  Lemma sponge_bytes_app a b s :
    sbytes (a + b) s = (fst (sbytes a s) ++ fst (sbytes b (snd (sbytes a s))),
                        snd (sbytes b (snd (sbytes a s)))).
  Proof.
    revert s. induction a; intros s; cbn [Nat.add sponge_bytes].
    - cbn. now destruct (sbytes b s).
    - destruct (sponge_byte hash s) as [x s1]. rewrite IHa. destruct (sbytes a s1). reflexivity.
  Qed.

  Lemma sponge_bytes_unread n p u : n <= length u ->
    sbytes n (Sponge false p u) = (firstn n u, Sponge false p (skipn n u)).
  Proof.
    clear hash_len osz_pos bsz_pos.
    revert u. induction n; intros u H; [reflexivity|]. destruct u as [|x u]; [cbn in H; lia|].
    cbn [sponge_bytes sponge_byte unread absorbed]. rewrite IHn by (cbn in H; lia). reflexivity.
  Qed.

  Lemma sponge_fill n p : sbytes (S n) (Sponge false p []) = sbytes (S n) (Sponge false (hash p) (hash p)).
  Proof.
    clear bsz_pos. cbn [sponge_bytes]. unfold sponge_byte. cbn [unread absorbed].
    pose proof (hash_len p). destruct (hash p) as [|x d]; [cbn in *; lia|]. reflexivity.
  Qed.

  Definition sview (s : blockbuf) : sponge :=
    Sponge false (bb_hasher s) (skipn (bb_index s) (bb_buffer s)).

  Lemma copy_to_slice_ok n : forall fuel s, sinv s ->
    (2 * n <= fuel \/ (bb_index s < osz /\ 2 * n <= S fuel)) ->
    exists s', copy_to_slice hash osz fuel s n = Some (fst (sbytes n (sview s)), s') /\
      sinv s' /\ sview s' = snd (sbytes n (sview s)).
  Proof.
    intros fuel. revert n. induction fuel; intros n s I Hf.
    - assert (n = 0) by lia. subst n. exists s. auto.
    - cbn [copy_to_slice]. destruct (Nat.eqb_spec n 0) as [->|Hn].
      { exists s. auto. }
      pose proof I as [Hi Hb].
      assert (L : length (skipn (bb_index s) (bb_buffer s)) = osz - bb_index s).
      { rewrite skipn_length. lia. }
      rewrite L. rewrite advance_ok by (auto; lia). cbn [obind].
      destruct (Nat.eqb_spec (bb_index s) osz) as [E|E].
      + replace (Nat.min (osz - bb_index s) n) with 0 by lia. rewrite Nat.sub_0_r.
        destruct (IHfuel n (fill_buffer hash s)) as (s' & E' & I' & V').
        * unfold sinv, fill_buffer. cbn. split; [lia|apply hash_len].
        * right. cbn. lia.
        * rewrite E'. cbn [obind firstn app]. exists s'.
          assert (Q : sbytes n (sview (fill_buffer hash s)) = sbytes n (sview s)).
          { unfold sview at 2. rewrite E, <- Hb, skipn_all. destruct n as [|n]; [lia|].
            rewrite sponge_fill. reflexivity. }
          rewrite <- Q. auto.
      + set (cnt := Nat.min (osz - bb_index s) n).
        set (s1 := BlockBuf (bb_index s + cnt) (bb_buffer s) (bb_hasher s)).
        assert (I1 : sinv s1) by (unfold sinv, s1; cbn; lia).
        assert (V1 : sbytes cnt (sview s) = (firstn cnt (skipn (bb_index s) (bb_buffer s)), sview s1)).
        { unfold sview. rewrite sponge_bytes_unread by (rewrite L; lia). f_equal. f_equal.
          unfold s1. cbn [bb_index bb_buffer]. now rewrite skipn_add. }
        destruct (IHfuel (n - cnt) s1) as (s' & E' & I' & V'); auto.
        * destruct (Nat.eq_dec cnt n) as [Ec|Ec]; [left; lia|]. left. lia.
        * rewrite E'. cbn [obind]. exists s'. split; [|split; [exact I'|]].
          -- f_equal. f_equal. replace n with (cnt + (n - cnt)) at 2 by lia.
             rewrite sponge_bytes_app, V1. reflexivity.
          -- rewrite V'. replace n with (cnt + (n - cnt)) at 2 by lia.
             rewrite sponge_bytes_app, V1. reflexivity.
  Qed.

  (** ** The challenger behaves as the byte-at-a-time sponge *)
  Definition view (c : chal) : sponge :=
    match c with
    | Observer o => Sponge true (content o) []
    | Sampler s => sview s
    end.
  Definition cinv (c : chal) : Prop :=
    match c with Observer o => binv o | Sampler s => sinv s end.

  Lemma default_inv : cinv (challenger_default hash).
  Proof. cbn. unfold sinv. cbn. split; [lia|apply hash_len]. Qed.

  Lemma observe_ok c bs : cinv c -> exists c', observe bsz c bs = Some c' /\ cinv c' /\
    view c' = sponge_observe osz (view c) bs.
  Proof.
    intros I. unfold observe.
    assert (B : binv (observer bsz c) /\ content (observer bsz c) =
      if absorbing (view c) then absorbed (view c)
      else absorbed (view c) ++ le_bytes 8 (N.of_nat (osz - length (unread (view c))))).
    { destruct c as [o|s]; cbn [observer view absorbing absorbed unread] in *; [auto|].
      unfold into_observer, binv, content, sview. cbn. rewrite repeat_length, app_nil_r.
      split; [split; [lia|reflexivity]|]. destruct I as [I1 I2]. rewrite skipn_length, I2.
      replace (osz - (osz - bb_index s)) with (bb_index s) by lia. reflexivity. }
    destruct B as [B1 B2].
    destruct (put_slice_ok bs (length bs) (observer bsz c) (le_n _) B1) as (o' & -> & I' & C').
    cbn [obind]. exists (Observer o'). split; [reflexivity|]. split; [exact I'|].
    cbn [view]. unfold sponge_observe. now rewrite C', B2.
  Qed.

  Lemma sample_ok c n : cinv c -> exists c', sample hash osz c n = Some (fst (sponge_sample hash (view c) n), c') /\
    cinv c' /\ view c' = snd (sponge_sample hash (view c) n).
  Proof.
    intros I. unfold sample.
    assert (B : sinv (sampler osz c) /\
      sview (sampler osz c) = Sponge false (absorbed (view c)) (unread (view c))).
    { destruct c as [o|s]; cbn [sampler view absorbed unread] in *; [|auto].
      unfold into_sampler, sinv, sview, flush. cbn. rewrite repeat_length. split; [lia|].
      f_equal. apply skipn_all2. now rewrite repeat_length. }
    destruct B as [B1 B2].
    destruct (copy_to_slice_ok n (2 * n) (sampler osz c) B1 (or_introl (le_n _))) as (s' & -> & I' & V').
    cbn [obind]. exists (Sampler s'). unfold sponge_sample. rewrite <- B2. auto.
  Qed.

  Lemma run_ok evs : forall c, cinv c -> exists c', run hash osz bsz c evs =
    Some (fst (sponge_run hash osz (view c) evs), c') /\ cinv c' /\
    view c' = snd (sponge_run hash osz (view c) evs).
  Proof.
    induction evs as [|[bs|n] evs IH]; intros c I; cbn [run sponge_run].
    - exists c. auto.
    - destruct (observe_ok c bs I) as (c1 & -> & I1 & V1). cbn [obind].
      destruct (IH c1 I1) as (c' & -> & I' & V'). exists c'. now rewrite <- V1.
    - destruct (sample_ok c n I) as (c1 & -> & I1 & V1). cbn [obind].
      destruct (IH c1 I1) as (c' & -> & I' & V'). cbn [obind]. exists c'.
      destruct (sponge_sample hash (view c) n) as [out s1]. cbn [fst snd] in *. subst s1.
      destruct (sponge_run hash osz (view c1) evs). auto.
  Qed.

  (** C34: whatever the sequence of writes and reads, the challenger never fails and the bytes it
      samples are those of the sponge that has no buffers. *)
  Theorem challenger_is_sponge evs : exists c,
    run hash osz bsz (challenger_default hash) evs =
      Some (fst (sponge_run hash osz (sponge_init hash) evs), c).
  Proof.
    destruct (run_ok evs (challenger_default hash) default_inv) as (c & E & _).
    exists c. exact E.
  Qed.

  (** C34: splitting an observation in two, or a sampling in two, changes nothing that follows. *)
  Theorem challenger_split_observe pre a b post :
    let out evs := option_map fst (run hash osz bsz (challenger_default hash) evs) in
    out (pre ++ EObserve (a ++ b) :: post) = out (pre ++ EObserve a :: EObserve b :: post).
  Proof.
    cbv zeta.
    destruct (challenger_is_sponge (pre ++ EObserve (a ++ b) :: post)) as [c1 ->].
    destruct (challenger_is_sponge (pre ++ EObserve a :: EObserve b :: post)) as [c2 ->].
    cbn [option_map fst]. f_equal. generalize (sponge_init hash).
    induction pre as [|[bs|n] pre IH]; intros s; cbn [app sponge_run].
    - unfold sponge_observe at 1 2 3. cbn [absorbing absorbed]. now rewrite app_assoc.
    - apply IH.
    - destruct (sponge_sample hash s n) as [o s1]. specialize (IH s1).
      destruct (sponge_run hash osz s1 _), (sponge_run hash osz s1 _). cbn in *. congruence.
  Qed.

  (** The samples after a prefix: [pre] is left alone and the two halves concatenate. *)
  Theorem challenger_split_sample pre m n post : exists outs1 x y outs2 c1 c2,
    run hash osz bsz (challenger_default hash) (pre ++ ESample (m + n) :: post) =
      Some (outs1 ++ (x ++ y) :: outs2, c1) /\
    run hash osz bsz (challenger_default hash) (pre ++ ESample m :: ESample n :: post) =
      Some (outs1 ++ x :: y :: outs2, c2) /\ length x = m /\ length y = n.
  Proof.
    destruct (challenger_is_sponge (pre ++ ESample (m + n) :: post)) as [c1 ->].
    destruct (challenger_is_sponge (pre ++ ESample m :: ESample n :: post)) as [c2 ->].
    assert (L : forall k s, length (fst (sbytes k s)) = k).
    { clear. induction k; intros s; cbn [sponge_bytes]; auto. destruct (sponge_byte hash s) as [x s1].
      specialize (IHk s1). destruct (sbytes k s1). cbn in *. now rewrite IHk. }
    assert (A : forall s, absorbing s = false -> forall k, absorbing (snd (sbytes k s)) = false).
    { clear. intros s H k. revert s H. induction k; intros s H; cbn [sponge_bytes]; auto.
      destruct (sponge_byte hash s) as [x s1] eqn:E. 
      assert (H1 : absorbing s1 = false).
      { unfold sponge_byte in E. destruct (unread s); injection E as <- <-; reflexivity. }
      specialize (IHk s1 H1). destruct (sbytes k s1). exact IHk. }
    assert (G : forall s, exists outs1 x y outs2,
      fst (sponge_run hash osz s (pre ++ ESample (m + n) :: post)) = outs1 ++ (x ++ y) :: outs2 /\
      fst (sponge_run hash osz s (pre ++ ESample m :: ESample n :: post)) = outs1 ++ x :: y :: outs2 /\
      length x = m /\ length y = n).
    { induction pre as [|[bs|k] pre IH]; intros s; cbn [app sponge_run].
      - unfold sponge_sample. set (s0 := Sponge false (absorbed s) (unread s)).
        rewrite sponge_bytes_app. pose proof (L m s0) as L1. pose proof (A s0 eq_refl m) as A1.
        destruct (sbytes m s0) as [x s1]. cbn [fst snd] in *.
        replace (Sponge false (absorbed s1) (unread s1)) with s1
          by (destruct s1; cbn in *; now subst).
        pose proof (L n s1) as L2. destruct (sbytes n s1) as [y s2]. cbn [fst snd] in *.
        destruct (sponge_run hash osz s2 post) as [outs s3].
        exists [], x, y, outs. auto.
      - apply IH.
      - destruct (sponge_sample hash s k) as [o s1].
        destruct (IH s1) as (o1 & x & y & o2 & E1 & E2 & L1 & L2).
        destruct (sponge_run hash osz s1 (pre ++ ESample (m + n) :: post)).
        destruct (sponge_run hash osz s1 (pre ++ ESample m :: ESample n :: post)). cbn in *. subst.
        exists (o :: o1), x, y, o2. auto. }
    destruct (G (sponge_init hash)) as (o1 & x & y & o2 & E1 & E2 & L1 & L2).
    exists o1, x, y, o2, c1, c2. now rewrite E1, E2.
  Qed.

  (** Hashing through the block buffer is hashing the concatenation of the items. *)
  Theorem hash_serialize_correct items : hash_serialize hash bsz items = Some (hash (concat items)).
  Proof.
    unfold hash_serialize.
    assert (G : forall o, binv o -> exists o', put_items bsz o items = Some o' /\
      content o' = content o ++ concat items).
    { induction items as [|i r IH]; intros o I; cbn [put_items concat].
      - exists o. now rewrite app_nil_r.
      - destruct (put_slice_ok i (length i) o (le_n _) I) as (o1 & -> & I1 & C1). cbn [obind].
        destruct (IH o1 I1) as (o' & -> & C'). exists o'. split; auto. now rewrite C', C1, <- app_assoc. }
    destruct (G (BlockBuf 0 (repeat 0%N bsz) [])) as (o & -> & C).
    - unfold binv. cbn. rewrite repeat_length. auto.
    - cbn [obind]. f_equal. f_equal. unfold content in C at 2. cbn in C. exact C.
  Qed.
End Challenger.
