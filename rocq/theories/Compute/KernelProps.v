(** C52 (kernel launches) and concrete cases for C52. *)
Require Import Coq.NArith.NArith Coq.setoid_ring.Ring Coq.Arith.Arith Coq.Lists.List Coq.Bool.Bool Lia.
From Verif Require Import Base.Fld Base.Lists Base.Sums Base.NatBits Field.Examples Field.TowerProofs Field.TowerModel
  Math.MleSpec Math.ArithModel Math.ArithProofs Math.ArithProps Compute.CpuModel Compute.CpuProps.
Import ListNotations.
Local Close Scope N_scope.
Local Open Scope nat_scope.

(** ** Specification *)

(** Chunk [i] of a buffer cut into 2^L equal chunks. *)
Definition chunk {A} (L i : nat) (data : list A) : list A := firstn (length data / 2 ^ L) (skipn (i * (length data / 2 ^ L)) data).

Section Spec.
  Variable F : field.
  (** The buffers kernel [i] of 2^L must get: its chunk of every mapped buffer and a zeroed scratchpad for every local one. *)
  Definition fresh (L i : nat) (m : mem_map F) : list F :=
    match m with
    | Chunked _ d _ | ChunkedMut _ d _ => chunk L i d
    | Local _ s => repeat f0 (2 ^ (s - L))
    end.
  (** A mapping can be cut into 2^L chunks respecting its minimal chunk size. *)
  Definition divides_into (L : nat) (m : mem_map F) : Prop :=
    match m with
    | Chunked _ d lm | ChunkedMut _ d lm => exists k, length d = 2 ^ k /\ L + Nat.min lm k <= k
    | Local _ s => L <= s
    end.
  Definition is_local (m : mem_map F) : Prop := match m with Local _ _ => True | _ => False end.
  (** Kernels get slices, which they cannot resize. *)
  Definition keeps_lengths {R} (kernel : nat -> list (list F) -> list (list F) * res R) : Prop :=
    forall L bufs, map (@length F) (fst (kernel L bufs)) = map (@length F) bufs.
  (** The kernel does not read its local buffers before writing them. *)
  Definition ignores_scratch {R} (maps : list (mem_map F)) (kernel : nat -> list (list F) -> list (list F) * res R) : Prop :=
    forall L b b', map (@length F) b = map (@length F) b' ->
      (forall j m, nth_error maps j = Some m -> ~ is_local m -> nth j b [] = nth j b' []) ->
      snd (kernel L b) = snd (kernel L b') /\
      forall j m, nth_error maps j = Some m -> ~ is_local m -> nth j (fst (kernel L b)) [] = nth j (fst (kernel L b')) [].
End Spec.

Section Kernels.
  Variable F : field.
  Local Open Scope fld_scope.
  Add Ring Fring : (f_ring F).

  Lemma range_end_ok L (m : mem_map F) : divides_into F L m -> exists e, range_end F m = Ok e /\ (L <= e)%nat.
  Proof.
    destruct m as [d lm|d lm|s]; cbn [divides_into range_end].
    1, 2: intros (k & E & H); unfold checked_log; rewrite E, strict_log_pow; cbn [of_opt rbind]; eexists; split; [reflexivity|]; lia.
    intros H. eauto.
  Qed.
  Lemma range_end_inv (m : mem_map F) e L : range_end F m = Ok e -> (L <= e)%nat -> divides_into F L m.
  Proof.
    destruct m as [d lm|d lm|s]; cbn [divides_into range_end]; unfold checked_log.
    1, 2: destruct (strict_log (length d)) as [k|] eqn:E; [|discriminate]; cbn [of_opt rbind]; intros [= <-] H; apply strict_log_some in E; exists k; split; [auto|lia].
    now intros [= <-] H.
  Qed.
  Lemma rmap_inv {A B} (f : A -> res B) l : forall r, rmap f l = Ok r -> Forall2 (fun x y => f x = Ok y) l r.
  Proof.
    induction l as [|x l IH]; cbn [rmap]; intros r E; [injection E as <-; constructor|].
    destruct (f x) eqn:E1; try discriminate. cbn [rbind] in E. destruct (rmap f l) eqn:E2; try discriminate. injection E as <-. constructor; auto.
  Qed.
  Lemma fold_min es : forall e, (forall x, In x (e :: es) -> fold_left Nat.min es e <= x)%nat /\ In (fold_left Nat.min es e) (e :: es).
  Proof.
    induction es as [|y es IH]; intros e; cbn [fold_left]; [split; [intros x [->|[]]; auto|now left]|].
    destruct (IH (Nat.min e y)) as [H1 H2]. split.
    - intros x Hx. pose proof (H1 _ (or_introl eq_refl)). destruct Hx as [->|[->|Hx]]; [lia|lia|]. apply H1. now right.
    - destruct H2 as [H2|H2]; [|right; now right]. rewrite <- H2. destruct (Nat.min_spec e y) as [[_ ->]|[_ ->]]; [now left|right; now left].
  Qed.

  (** The number of kernels is the largest power of two every mapping admits. *)
  Theorem launch_log_chunks_correct maps L :
    launch_log_chunks F maps = Ok L <-> maps <> [] /\ Forall (divides_into F L) maps /\ (~ Forall (divides_into F (S L)) maps).
  Proof.
    unfold launch_log_chunks. split.
    - intros E. destruct (rmap (range_end F) maps) as [ends| |] eqn:E1; try discriminate. cbn [rbind] in E. apply rmap_inv in E1.
      destruct E1 as [|m e maps ends E0 E1]; [discriminate|]. injection E as E. destruct (fold_min ends e) as [H1 H2]. rewrite E in *.
      assert (G : Forall2 (fun x y => range_end F x = Ok y) (m :: maps) (e :: ends)) by now constructor.
      split; [discriminate|]. split.
      + clear E0 E1 H2 E. revert H1. induction G as [|m' e' ms es Em _ IH]; intros H1; constructor.
        * eapply range_end_inv; [exact Em|]. apply H1. now left.
        * apply IH. intros x Hx. apply H1. now right.
      + clear E0 E1 H1 E. intros HF. revert HF. induction G as [|m' e' ms es Em _ IH]; intros HF; [destruct H2|]. inversion HF; subst.
        destruct H2 as [->|H2]; [|now apply IH]. destruct (range_end_ok _ _ H1) as (e2 & Ee & Le). rewrite Em in Ee. injection Ee as ->. lia.
    - intros (NE & HF & NF).
      assert (G : exists ends, rmap (range_end F) maps = Ok ends /\ Forall2 (fun x y => range_end F x = Ok y /\ (L <= y)%nat) maps ends).
      { clear NE NF. induction HF as [|m ms Hm _ (ends & E & G)]; [exists []; split; [reflexivity|constructor]|].
        destruct (range_end_ok _ _ Hm) as (e & Ee & Le). exists (e :: ends). cbn [rmap]. rewrite Ee. cbn [rbind]. rewrite E. split; [reflexivity|]. constructor; auto. }
      destruct G as (ends & -> & G). cbn [rbind]. destruct G as [|m e ms es [Em Le] G]; [congruence|]. f_equal.
      destruct (fold_min es e) as [H1 H2].
      assert (G' : Forall2 (fun x y => range_end F x = Ok y /\ (L <= y)%nat) (m :: ms) (e :: es)) by (constructor; auto).
      apply Nat.le_antisymm.
      + destruct (Nat.le_gt_cases (fold_left Nat.min es e) L) as [|C]; auto. exfalso. apply NF. clear - H1 G' C. set (z := fold_left Nat.min es e) in *.
        clearbody z. induction G' as [|m' e' ms' es' [Em' Le'] _ IH]; constructor.
        * eapply range_end_inv; [exact Em'|]. specialize (H1 e' (or_introl eq_refl)). lia.
        * apply IH. intros x Hx. apply H1. now right.
      + clear - H2 G'. induction G' as [|m' e' ms' es' [Em' Le'] _ IH]; [destruct H2|]. destruct H2 as [<-|H2]; auto.
  Qed.

  Section Run.
    Context {R : Type}.
    Variable kernel : nat -> list (list F) -> list (list F) * res R.
    Variable maps : list (mem_map F).
    Variable L : nat.
    Hypothesis DIV : Forall (divides_into F L) maps.
    Hypothesis KL : keeps_lengths F kernel.
    Hypothesis KS : ignores_scratch F maps kernel.
    Notation sz d := (length d / 2 ^ L)%nat.
    Definition kernel_out (i : nat) : list (list F) := fst (kernel L (map (fresh F L i) maps)).

    Lemma div_sz (m : mem_map F) d lm : m = Chunked F d lm \/ m = ChunkedMut F d lm -> In m maps -> length d = (2 ^ L * sz d)%nat.
    Proof.
      intros E H. rewrite Forall_forall in DIV. specialize (DIV m H).
      assert (D : exists k, length d = (2 ^ k)%nat /\ (L + Nat.min lm k <= k)%nat) by (destruct E; subst m; exact DIV).
      destruct D as (k & -> & LK). replace k with (L + (k - L))%nat by lia. rewrite Nat.pow_add_r.
      rewrite (Nat.mul_comm (2 ^ L)), Nat.div_mul by (apply Nat.pow_nonzero; lia). lia.
    Qed.

    Lemma div_szC d lm : In (Chunked F d lm) maps -> length d = (2 ^ L * sz d)%nat. Proof. apply (div_sz _ d lm). auto. Qed.
    Lemma div_szM d lm : In (ChunkedMut F d lm) maps -> length d = (2 ^ L * sz d)%nat. Proof. apply (div_sz _ d lm). auto. Qed.

    Definition state_at (i : nat) (st : list (list F)) : Prop :=
      length st = length maps /\ forall j m, nth_error maps j = Some m ->
        match m with
        | Chunked _ d _ => nth j st [] = d
        | ChunkedMut _ d _ => nth j st [] = concat (map (fun i => nth j (kernel_out i) []) (seq 0 i)) ++ skipn (i * sz d) d
        | Local _ s => length (nth j st []) = (2 ^ (s - L))%nat
        end.

    Lemma map2_length {A B C} (f : A -> B -> C) (l : list A) (l' : list B) : length l = length l' -> length (map2 f l l') = length l.
    Proof. intros H. unfold map2. rewrite map_length, combine_length. lia. Qed.
    Lemma map2_at {A B C} (f : A -> B -> C) (l : list A) (l' : list B) j a b c : length l = length l' -> nth_error l j = Some a ->
      nth j (map2 f l l') c = f a (nth j l' b).
    Proof.
      intros H E. pose proof (nth_error_lt _ _ _ E) as Hj. unfold map2. rewrite nth_map_lt with (d' := (a, b)) by (rewrite combine_length; lia).
      rewrite combine_nth by auto. cbn [fst snd]. f_equal. now apply nth_error_nth.
    Qed.
    Lemma map3_length {A B C D} (f : A -> B -> C -> D) l l' l'' : length l = length l' -> length l = length l'' -> length (map3 f l l' l'') = length l.
    Proof. revert l' l''. induction l as [|a l IH]; intros [|b l'] [|c l''] H H'; cbn in *; auto; try discriminate. Qed.
    Lemma map3_at {A B C D} (f : A -> B -> C -> D) l : forall l' l'' j a b c d, length l = length l' -> length l = length l'' -> nth_error l j = Some a ->
      nth j (map3 f l l' l'') d = f a (nth j l' b) (nth j l'' c).
    Proof.
      induction l as [|x l IH]; intros [|y l'] [|z l''] [|j] a b c d H H' E; cbn in *; try discriminate; [congruence|]. apply IH; auto.
    Qed.
    Lemma fresh_len i j m : (i < 2 ^ L)%nat -> nth_error maps j = Some m ->
      length (fresh F L i m) = match m with Chunked _ d _ | ChunkedMut _ d _ => sz d | Local _ s => (2 ^ (s - L))%nat end.
    Proof.
      intros Hi E. apply nth_error_In in E. destruct m as [d lm|d lm|s]; cbn [fresh]; [| |apply repeat_length].
      all: unfold chunk; rewrite firstn_length, skipn_length; first [pose proof (div_szC d lm E) | pose proof (div_szM d lm E)]; nia.
    Qed.
    Lemma out_len i j m : (i < 2 ^ L)%nat -> nth_error maps j = Some m -> length (nth j (kernel_out i) []) = length (fresh F L i m).
    Proof.
      intros Hi E. pose proof (KL L (map (fresh F L i) maps)) as K. fold (kernel_out i) in K.
      assert (EL : nth_error (map (@length F) (kernel_out i)) j = nth_error (map (@length F) (map (fresh F L i) maps)) j) by now rewrite K.
      rewrite !nth_error_map, E in EL. cbn [option_map] in EL. destruct (nth_error (kernel_out i) j) eqn:E2; [|discriminate]. cbn in EL. injection EL as EL.
      now rewrite (nth_error_nth _ _ _ E2).
    Qed.
    Lemma outs_len i j m d : (i <= 2 ^ L)%nat -> nth_error maps j = Some m -> (exists lm, m = ChunkedMut F d lm) ->
      length (concat (map (fun i => nth j (kernel_out i) []) (seq 0 i))) = (i * sz d)%nat.
    Proof.
      intros Hi E (lm & ->). induction i as [|i IH]; [reflexivity|]. rewrite seq_S, map_app, concat_app, app_length, IH by lia. cbn [map concat]. rewrite app_nil_r, Nat.add_0_l.
      rewrite (out_len i j _ ltac:(lia) E), (fresh_len i j _ ltac:(lia) E). lia.
    Qed.

    Lemma run_step i st : (i < 2 ^ L)%nat -> state_at i st ->
      let bufs := map2 (kernel_buffer F L i) maps st in
      snd (kernel L bufs) = snd (kernel L (map (fresh F L i) maps)) /\
      state_at (S i) (map3 (write_back F L i) maps st (fst (kernel L bufs))).
    Proof.
      intros Hi [LS HS] bufs.
      assert (LB : length bufs = length maps) by (apply map2_length; auto).
      assert (BN : forall j m, nth_error maps j = Some m -> length (nth j bufs []) = length (fresh F L i m) /\ (~ is_local F m -> nth j bufs [] = fresh F L i m)).
      { intros j m E. unfold bufs. rewrite (map2_at _ _ _ _ m [] _) by auto. pose proof (HS j m E) as Hm. pose proof (nth_error_In _ _ E) as IN.
        rewrite (fresh_len i j m Hi E). destruct m as [d lm|d lm|s]; cbn [kernel_buffer fresh is_local].
        - rewrite Hm. split; [|reflexivity]. rewrite firstn_length, skipn_length. pose proof (div_szC d lm IN). nia.
        - rewrite Hm. set (pre := concat _). assert (LP : length pre = (i * sz d)%nat) by (apply (outs_len i j _ d ltac:(lia) E); eauto).
          pose proof (div_szM d lm IN) as DS.
          assert (LD : length (pre ++ skipn (i * sz d) d) = length d) by (rewrite app_length, skipn_length; nia). rewrite LD.
          rewrite <- LP. rewrite skipn_app, skipn_all, Nat.sub_diag. cbn [app]. rewrite LP. change (skipn 0 ?x) with x.
          split; [rewrite firstn_length, skipn_length; nia|reflexivity].
        - split; [auto|]. intros N. now exfalso. }
      assert (ML : map (@length F) bufs = map (@length F) (map (fresh F L i) maps)).
      { apply list_eq_nth with (d := O); rewrite !map_length; [auto|]. intros j Hj. rewrite LB in Hj. destruct (nth_error_ex maps j Hj) as [m E].
        rewrite nth_map_lt with (d' := []) by lia. rewrite nth_map_lt with (d' := []) by (rewrite map_length; lia).
        rewrite nth_map_lt with (d' := m) by lia. rewrite (nth_error_nth _ _ _ E). now apply BN. }
      destruct (KS L bufs (map (fresh F L i) maps) ML) as [E1 E2].
      { intros j m E N. destruct (BN j m E) as [_ B]. rewrite (B N). rewrite nth_map_lt with (d' := m) by (eapply nth_error_lt; eauto). now rewrite (nth_error_nth _ _ _ E). }
      split; [exact E1|].
      assert (LK : length (fst (kernel L bufs)) = length maps) by (rewrite <- (map_length (@length F)), KL, map_length; auto).
      split; [apply map3_length; auto|]. intros j m E. pose proof (HS j m E) as Hm. pose proof (nth_error_In _ _ E) as IN.
      rewrite (map3_at _ _ _ _ _ m [] []) by auto. destruct m as [d lm|d lm|s]; cbn [write_back].
      - exact Hm.
      - set (pre := concat (map (fun i => nth j (kernel_out i) []) (seq 0 i))) in *.
        assert (LP : length pre = (i * sz d)%nat) by (apply (outs_len i j _ d ltac:(lia) E); eauto).
        pose proof (div_szM d lm IN) as DS.
        assert (LD : length (nth j st []) = length d) by (rewrite Hm, app_length, skipn_length; nia). rewrite LD, Hm.
        rewrite (E2 j _ E) by (intros []). rewrite seq_S, map_app, concat_app, <- app_assoc. fold pre. cbn [map concat]. rewrite app_nil_r, Nat.add_0_l.
        rewrite firstn_app, <- LP, firstn_all, Nat.sub_diag, firstn_O, app_nil_r. f_equal. unfold kernel_out at 1. f_equal.
        rewrite skipn_app, LP. rewrite (skipn_all2 pre) by nia. cbn [app]. rewrite Lists.skipn_add. f_equal. nia.
      - pose proof (KL L bufs) as K.
        assert (EL : nth_error (map (@length F) (fst (kernel L bufs))) j = nth_error (map (@length F) bufs) j) by now rewrite K.
        pose proof (nth_error_lt _ _ _ E) as Hj. rewrite !nth_error_map, (nth_error_nth_eq _ j []), (nth_error_nth_eq bufs j []) in EL by lia. injection EL as ->.
        destruct (BN j _ E) as [B _]. rewrite B. now rewrite (fresh_len i j _ Hi E).
    Qed.

    Lemma run_ok n : forall i st, (i + n <= 2 ^ L)%nat -> state_at i st ->
      exists st', run_kernels F kernel L maps (seq i n) st = (st', map (fun i => snd (kernel L (map (fresh F L i) maps))) (seq i n)) /\ state_at (i + n) st'.
    Proof.
      induction n as [|n IH]; intros i st Hi HS; [exists st; rewrite Nat.add_0_r; split; auto; reflexivity|].
      cbn [seq run_kernels map]. destruct (run_step i st ltac:(lia) HS) as [E1 E2].
      destruct (kernel L (map2 (kernel_buffer F L i) maps st)) as [bufs r] eqn:EK. cbn [fst snd] in E1, E2. subst r.
      destruct (IH (S i) _ ltac:(lia) E2) as (st' & -> & H'). exists st'. split; [reflexivity|]. now replace (i + S n)%nat with (S i + n)%nat by lia.
    Qed.
  End Run.

  (** Every kernel sees its chunks of the initial data and zeroed scratch memory; a mutable buffer ends up as the concatenation
      of what the kernels left in their chunks; read-only buffers are unchanged. *)
  Theorem process_kernels_correct {R} (kernel : nat -> list (list F) -> list (list F) * res R) maps L :
    launch_log_chunks F maps = Ok L -> keeps_lengths F kernel -> ignores_scratch F maps kernel ->
    let run i := kernel L (map (fresh F L i) maps) in
    exists st, process_kernels F kernel maps = Ok (st, map (fun i => snd (run i)) (seq 0 (2 ^ L))) /\ length st = length maps /\
      forall j m, nth_error maps j = Some m ->
        match m with
        | Chunked _ d _ => nth j st [] = d
        | ChunkedMut _ d _ => nth j st [] = concat (map (fun i => nth j (fst (run i)) []) (seq 0 (2 ^ L)))
        | Local _ _ => True
        end.
  Proof.
    intros EL KL KS run. pose proof EL as EL'. apply launch_log_chunks_correct in EL' as (_ & DIV & _). unfold process_kernels. rewrite EL. cbn [rbind].
    destruct (run_ok kernel maps L DIV KL KS (2 ^ L) 0 (map (initial F L) maps)) as (st & E & LS & HS); [lia| |].
    { split; [now rewrite map_length|]. intros j m E. rewrite nth_map_lt with (d' := m) by (eapply nth_error_lt; eauto). rewrite (nth_error_nth _ _ _ E).
      destruct m; cbn [initial]; auto. apply repeat_length. }
    rewrite E. exists st. split; [reflexivity|]. split; [auto|]. intros j m Em. specialize (HS j m Em). destruct m as [d lm|d lm|s]; auto.
    rewrite HS. rewrite Nat.add_0_l. pose proof (div_szM maps L DIV d lm (nth_error_In _ _ Em)) as DS.
    rewrite (skipn_all2 d) by nia. now rewrite app_nil_r.
  Qed.

  (** accumulate_kernels adds the kernels' result vectors entry by entry, a shorter one counting as padded with zeros. *)
  Lemma add_extend_nth (a : list F) : forall b t, nth t (add_extend F a b) 0 = nth t a 0 + nth t b 0.
  Proof.
    induction a as [|x a IH]; intros b t; [cbn [add_extend]; destruct b, t; cbn; ring|].
    destruct b as [|y b]; cbn [add_extend]; [destruct t; cbn; ring|]. destruct t as [|t]; cbn [nth]; [reflexivity|apply IH].
  Qed.
  Lemma add_extend_length (a : list F) : forall b, length (add_extend F a b) = Nat.max (length a) (length b).
  Proof. induction a as [|x a IH]; intros [|y b]; cbn [add_extend length]; auto. now rewrite IH. Qed.

  Lemma accumulate_ok (vs : list (list F)) : forall v, exists out, fold_left (accumulate F) (map (@Ok _) vs) (Ok v) = Ok out /\
    (forall t, nth t out 0 = nth t v 0 + fsum (map (fun w => nth t w 0) vs)) /\ length out = fold_right Nat.max (length v) (map (@length F) vs).
  Proof.
    induction vs as [|w vs IH]; intros v; cbn [map fold_left].
    - exists v. split; [reflexivity|]. split; [intros; cbn; ring|reflexivity].
    - cbn [accumulate]. destruct (IH (add_extend F v w)) as (out & E & H & HL). exists out. split; [exact E|]. split.
      + intros t. rewrite H, add_extend_nth. cbn [fsum]. ring.
      + rewrite HL, add_extend_length. cbn [map fold_right]. clear. induction vs as [|u vs IH]; cbn [map fold_right]; lia.
  Qed.
  Lemma accumulate_err rs : forall r, ~ In Panic (r :: rs) -> In Err (r :: rs) -> fold_left (accumulate F) rs r = Err.
  Proof.
    induction rs as [|x rs IH]; intros r NP HE; cbn [fold_left]; [now destruct HE as [->|[]]|].
    destruct r as [v| |]; [|destruct x as [w| |]|]; [destruct x as [w| |]| | | |]; cbn [accumulate]; try (exfalso; apply NP; cbn; tauto).
    - apply IH; [intros [H|H]; [discriminate|]; apply NP; right; right; auto|]. destruct HE as [H|[H|H]]; try discriminate. now right.
    - apply IH; [intros [H|H]; [discriminate|]; apply NP; right; right; auto|]. now left.
    - apply IH; [intros [H|H]; [discriminate|]; apply NP; right; right; auto|]. now left.
    - apply IH; [intros [H|H]; [discriminate|]; apply NP; right; right; auto|]. now left.
  Qed.

  Theorem accumulate_kernels_correct (kernel : nat -> list (list F) -> list (list F) * res (list F)) maps L :
    launch_log_chunks F maps = Ok L -> keeps_lengths F kernel -> ignores_scratch F maps kernel ->
    let run i := kernel L (map (fresh F L i) maps) in
    exists st r, accumulate_kernels F kernel maps = Ok (st, r) /\
      (forall v, (forall i, (i < 2 ^ L)%nat -> snd (run i) = Ok (v i)) ->
         exists out, r = Ok out /\ (forall t, nth t out 0 = sumn (2 ^ L) (fun i => nth t (v i) 0)) /\
           (forall i, (i < 2 ^ L)%nat -> (length (v i) <= length out)%nat)) /\
      ((forall i, (i < 2 ^ L)%nat -> snd (run i) <> Panic) -> (exists i, (i < 2 ^ L)%nat /\ snd (run i) = Err) -> r = Err).
  Proof.
    intros EL KL KS run. destruct (process_kernels_correct kernel maps L EL KL KS) as (st & E & _ & _). unfold accumulate_kernels. rewrite E. cbn [rbind].
    pose proof (pow2_pos L). destruct (2 ^ L)%nat as [|n] eqn:EN; [lia|]. cbn [seq map]. eexists st, _. split; [reflexivity|]. split.
    - intros v HV. fold (run O). rewrite HV by lia.
      assert (EM : map (fun i => snd (run i)) (seq 1 n) = map (@Ok _) (map v (seq 1 n))).
      { rewrite map_map. apply map_ext_in. intros i Hi. apply in_seq in Hi. apply HV. lia. }
      destruct (accumulate_ok (map v (seq 1 n)) (v O)) as (out & EO & HO & HL). exists out. split; [rewrite <- EO; f_equal; exact EM|]. split.
      + intros t. rewrite HO. unfold sumn. cbn [seq map fsum]. now rewrite map_map.
      + intros i Hi. rewrite HL. rewrite map_map. destruct i as [|i].
        * clear. induction (seq 1 n) as [|x l IH]; cbn [map fold_right]; lia.
        * assert (IN : In (S i) (seq 1 n)) by (apply in_seq; lia). clear - IN. induction (seq 1 n) as [|x l IH]; [destruct IN|]. cbn [map fold_right].
          destruct IN as [->|IN]; [lia|]. specialize (IH IN). lia.
    - intros NP (i & Hi & EE). apply accumulate_err.
      + intros HP. apply (in_map_iff (fun i => snd (run i)) (seq 0 (S n))) in HP as (i' & E' & I'). apply in_seq in I'. apply (NP i'); auto. lia.
      + apply (in_map_iff (fun i => snd (run i)) (seq 0 (S n))). exists i. split; auto. apply in_seq. lia.
  Qed.

  (** map_kernels reports success even if every kernel fails. *)
  Theorem map_kernels_error_refuted (maps : list (mem_map F)) L : launch_log_chunks F maps = Ok L ->
    exists st, map_kernels F (fun _ bufs => (bufs, Err)) maps = Ok (st, Ok tt).
  Proof.
    intros EL. unfold map_kernels, process_kernels. rewrite EL. cbn [rbind].
    assert (H : forall n i st, existsb (fun r : res unit => match r with Panic => true | _ => false end) (snd (run_kernels F (fun _ bufs => (bufs, Err)) L maps (seq i n) st)) = false).
    { induction n as [|n IH]; intros i st; [reflexivity|]. cbn [seq run_kernels]. specialize (IH (S i) (map3 (write_back F L i) maps st (map2 (kernel_buffer F L i) maps st))).
      destruct (run_kernels _ _ _ _ _ _) as [st' rs]. cbn [snd existsb orb] in *. exact IH. }
    specialize (H (2 ^ L)%nat O (map (initial F L) maps)). destruct (run_kernels _ _ _ _ _ _) as [st rs]. cbn [snd] in H. rewrite H. eauto.
  Qed.

  (** Scratch memory is documented to start as zeros; only the first kernel gets zeros.  This kernel adds 1 to its scratch cell
      and returns it, so the two kernels should return 1 + 1; they return 1 + (1 + 1). *)
  Definition scratch_kernel (L : nat) (bufs : list (list F)) : list (list F) * res (list F) :=
    let bufs := map (map (fun x => x + 1)) bufs in (bufs, Ok (concat bufs)).
  Theorem scratch_not_zeroed_refuted :
    keeps_lengths F scratch_kernel /\ launch_log_chunks F [Local F 1] = Ok 1%nat /\
    map (fun i => snd (scratch_kernel 1 (map (fresh F 1 i) [Local F 1]))) [0; 1]%nat = [Ok [0 + 1]; Ok [0 + 1]] /\
    exists st, accumulate_kernels F scratch_kernel [Local F 1] = Ok (st, Ok [0 + 1 + (0 + 1 + 1)]).
  Proof.
    split; [|split; [reflexivity|split; [reflexivity|eexists; reflexivity]]].
    intros L bufs. cbn. rewrite map_map. apply map_ext. intros; apply map_length.
  Qed.
End Kernels.

(** ** Concrete cases: the 256-element tower field over its bits *)
Definition X256 : field := TF 3.
Definition tower_bases (top level : nat) (x : TF top) : list (TF top) := map (dec top) (titer_bases (top - level) level (enc top x)).
Theorem tower_bases_length top level x : length (tower_bases top level x) = 2 ^ (top - level).
Proof. unfold tower_bases, titer_bases. now rewrite !map_length, seq_length. Qed.

Definition e8 (a : N) : X256 := dec 3 a.
Definition b8 (x : X256) : N := enc 3 x.
Definition shown8 (r : res (list X256)) : res (list N) := match r with Ok l => Ok (map b8 l) | Err => Err | Panic => Panic end.

(** A 4 by 2 bit matrix (one field element: bits 1,0,1,1,0,0,1,0) times a vector, from both sides, and rejected sizes. *)
Fact compute_ex :
  shown8 (fold_left_op X256 3 (tower_bases 3) [e8 0x4d] 0 [e8 3; e8 5] [e8 0; e8 0; e8 0; e8 0]) = Ok [3; 0; 6; 3]%N /\
  shown8 (fold_right_op X256 3 (tower_bases 3) [e8 0x4d] 0 [e8 3; e8 5] [e8 0; e8 0; e8 0; e8 0]) = Ok [3; 6; 0; 3]%N /\
  shown8 (fold_left_op X256 3 (tower_bases 3) [e8 0x4d] 0 [e8 3; e8 5] [e8 0; e8 0]) = Err /\
  match inner_product X256 3 (tower_bases 3) [e8 0x4d] 0 (map e8 [1; 2; 4; 8; 16; 32; 64; 128]%N) with Ok x => b8 x = 0x4d%N | _ => False end /\
  inner_product X256 3 (tower_bases 3) [e8 0x4d] 1 (map e8 [1; 2; 4; 8]%N) = Err /\
  shown8 (tensor_expand X256 1 [e8 3] (map e8 [5; 7; 0; 0]%N)) = Ok (map b8 [e8 5 * (f1 - e8 3); e8 7 * (f1 - e8 3); e8 5 * e8 3; e8 7 * e8 3])%F /\
  match pairwise_product_reduce X256 (map e8 [1; 2; 3; 4]%N) [[e8 9; e8 9]; [e8 9]] with
  | Ok r => map (map b8) r = map (map b8) [[e8 1 * e8 2; e8 3 * e8 4]; [e8 1 * e8 2 * (e8 3 * e8 4)]]%F | _ => False end.
Proof. vm_compute. repeat split; reflexivity. Qed.

(** A kernel that doubles-and-adds chunk by chunk: two kernels, each summing its chunk and writing a mutable buffer. *)
Definition ex_kernel (L : nat) (bufs : list (list X16)) : list (list X16) * res (list X16) :=
  match bufs with
  | [a; b; c] => ([a; map2 (fun x y => fadd x y) b (a ++ b); map (fun _ => f1) c], Ok [fsum a])
  | _ => (bufs, Err)
  end.
Fact kernels_ex :
  let maps := [Chunked X16 (els [1; 2; 3; 4]%N) 1; ChunkedMut X16 (els [5; 6; 7; 8]%N) 0; Local X16 1] in
  launch_log_chunks X16 maps = Ok 1 /\ Forall (divides_into X16 1) maps /\
  match accumulate_kernels X16 ex_kernel maps with
  | Ok (st, Ok [total]) => bits total = 4%N /\ map bits (nth 1 st []) = [4; 4; 4; 12]%N
  | _ => False end.
Proof.
  cbv zeta. split; [reflexivity|]. split; [repeat constructor; cbn; try (exists 2; split; [reflexivity|cbn; lia])|]. vm_compute. split; reflexivity.
Qed.
Fact kernels_ex_hypotheses :
  let maps := [Chunked X16 (els [1; 2; 3; 4]%N) 1; ChunkedMut X16 (els [5; 6; 7; 8]%N) 0; Local X16 1] in
  keeps_lengths X16 ex_kernel /\ ignores_scratch X16 maps ex_kernel.
Proof.
  cbv zeta. split.
  - intros L [|a [|b [|c [|? ?]]]]; try reflexivity. cbn [ex_kernel fst map]. unfold map2. rewrite !map_length, combine_length, app_length.
    repeat f_equal. lia.
  - intros L b b' EL H. destruct b as [|a [|b [|c [|? ?]]]], b' as [|a' [|b' [|c' [|? ?]]]]; try discriminate EL;
      try (split; [reflexivity|exact H]).
    pose proof (H 0 _ eq_refl (fun x => x)) as H0. pose proof (H 1 _ eq_refl (fun x => x)) as H1. cbn [nth] in H0, H1. subst a' b'.
    split; [reflexivity|]. intros [|[|[|j]]] m E N; [reflexivity|reflexivity| |destruct j; discriminate E]. injection E as <-. exfalso. apply N. exact I.
Qed.
