(** C80: lookups. *)
Require Import Coq.ZArith.ZArith Coq.NArith.NArith Coq.Arith.Arith Coq.Lists.List Coq.Bool.Bool Lia Coq.Sorting.Permutation.
From Verif Require Import Base.Fld Base.Lists Base.Sums Math.MleSpec Math.MleModel Math.ArithModel Math.ArithProofs Math.ArithProps Field.TowerModel Field.TowerProofs Field.Examples
  Transparent.TransparentModel Transparent.TransparentProps Transparent.TowerBasisProps Transparent.ShiftModel Sumcheck.ZerocheckModel Sumcheck.ZerocheckProps Gkr.ExpModel
  Evalcheck.OracleModel Evalcheck.EvalSpec Evalcheck.EvalProofs Cs.ChannelModel Cs.ChannelProps Cs.FlushModel Cs.FlushProofs
  M3.CompileModel M3.CompileSpec M3.RemapProofs M3.BuilderProofs M3.SystemProofs M3.CompileProps M3.LookupModel M3.LookupBits.
Import ListNotations.
Local Close Scope N_scope.
Local Close Scope Z_scope.
Local Open Scope nat_scope.

(* -------------------------------------------------------------------- *)
(** * Specification *)
Section Spec.
  Variable L : nat.
  Notation F := (TF L).

  (** The table [t'] is made from [t] by further calls of the builder: each of its methods adds columns, constraints, flushes
      or the size ([methods_later] below). *)
  Inductive later (t : tbl L) : tbl L -> Prop :=
  | later_refl : later t t
  | later_column t1 level lv d : later t t1 -> later t (snd (new_column L t1 level lv d))
  | later_zero t1 lv e : later t t1 -> later t (assert_zero L t1 lv e)
  | later_flush t1 lv f : later t t1 -> later t (add_flush L t1 lv f)
  | later_nonzero t1 c t2 : later t t1 -> assert_nonzero L t1 c = Ok t2 -> later t t2
  | later_spec t1 s : later t t1 -> t_spec L t1 = Arbitrary -> later t (mkTbl L (t_id L t1) (t_cols L t1) s (t_parts L t1)).

  (** As often as a tuple is pushed on the channel it is pulled. *)
  Definition balanced (c : nat) (es : list (event F)) : Prop := forall x, sent F Push c x es = sent F Pull c x es.
  (** Nothing but rows of the columns [ks] is pushed on channel [c]. *)
  Definition pushed_from (ts : list (tbl L)) (bs : list (boundary F)) (c : nat) (ks : list cid) : Prop :=
    (forall x, In x bs -> bd_channel F x = c -> bd_dir F x = Pull) /\
    (forall t p f, In (t, p) (parts_of L ts) -> In f (p_flushes L p) -> tf_channel f = c -> tf_dir f = Push -> tf_cols f = ks).
  (** an element of the subfield of level [b] *)
  Definition limb (b : nat) (x : F) : Prop := (enc L x < 2 ^ N.of_nat (2 ^ b))%N.
End Spec.

(* -------------------------------------------------------------------- *)
Section Tables.
  Variable L : nat.
  Notation F := (TF L).
  Notation tbl := (tbl L).

  (** What further calls keep. *)
  Definition keeps (t t' : tbl) : Prop :=
    t_id L t' = t_id L t /\ (t_spec L t = Arbitrary \/ t_spec L t' = t_spec L t) /\
    (forall n i, nth_error (t_cols L t) n = Some i -> exists i', nth_error (t_cols L t') n = Some i' /\ same_column L i i') /\
    (forall lv p f, part_of L t lv = Some p -> In f (p_flushes L p) -> exists p', part_of L t' lv = Some p' /\ In f (p_flushes L p')).
  Lemma same_refl (i : cinfo L) : same_column L i i.
  Proof. repeat split. Qed.
  Lemma keeps_refl t : keeps t t.
  Proof. split; [reflexivity|]. split; [now right|]. split; [intros n i E; exists i; split; [exact E|apply same_refl]|]. intros lv p f E H. eauto. Qed.
  Lemma keeps_with t lv p : (forall f, In f (p_flushes L (part_or_new L t lv)) -> In f (p_flushes L p)) -> keeps t (with_part L t lv p).
  Proof.
    intros H. split; [reflexivity|]. split; [now right|]. split; [intros n i E; exists i; split; [exact E|apply same_refl]|].
    intros lv' p' f E Hf. rewrite part_with. destruct (Nat.eqb_spec lv' lv) as [->|]; [|eauto]. exists p. split; [reflexivity|]. apply H. unfold part_or_new. now rewrite E.
  Qed.
  Lemma keeps_column t level lv d : keeps t (snd (new_column L t level lv d)).
  Proof.
    unfold new_column. cbn [snd]. set (p := mkPart _ _ _ _ _). pose proof (keeps_with t lv p (fun f H => H)) as (K1 & K2 & K3 & K4).
    split; [exact K1|]. split; [exact K2|]. split; [|exact K4]. cbn [t_cols with_part] in *. intros n i E. exists i. split; [|apply same_refl]. rewrite nth_error_app1; [exact E|]. apply nth_error_Some. congruence.
  Qed.
  Lemma keeps_trans t1 t2 t3 : keeps t1 t2 -> keeps t2 t3 -> keeps t1 t3.
  Proof.
    intros (A1 & A2 & A3 & A4) (B1 & B2 & B3 & B4). split; [congruence|]. split; [destruct A2 as [A2|A2]; [now left|]; destruct B2 as [B2|B2]; [left; congruence|right; congruence]|]. split.
    - intros n i E. destruct (A3 n i E) as (i' & E' & S1 & S2 & S3 & S4). destruct (B3 n i' E') as (i'' & E'' & Q1 & Q2 & Q3 & Q4). exists i''. split; [exact E''|]. repeat split; congruence.
    - intros lv p f E H. destruct (A4 lv p f E H) as (p' & E' & H'). eauto.
  Qed.
  Lemma later_keeps t t' : later L t t' -> keeps t t'.
  Proof.
    induction 1 as [|t1 level lv d H IH|t1 lv e H IH|t1 lv f H IH|t1 c t2 H IH E|t1 s H IH E]; [apply keeps_refl|..]; (eapply keeps_trans; [exact IH|]).
    - apply keeps_column.
    - apply keeps_with. intros f Hf. exact Hf.
    - apply keeps_with. intros g Hg. cbn [p_flushes]. apply in_or_app. now left.
    - unfold assert_nonzero in E. destruct (negb _); [discriminate|]. destruct (nth_error (t_cols L t1) (snd (h_id c))) as [i|] eqn:EI; [|discriminate]. apply ok_inj in E. subst t2.
      split; [reflexivity|]. split; [now right|]. split; [|intros lv p f EP Hf; eauto]. cbn [t_cols]. intros n j En.
      assert (Hn : n < length (t_cols L t1)) by (apply nth_error_Some; congruence). rewrite nth_error_upd.
      destruct (Nat.eqb_spec n (snd (h_id c))) as [->|]; [|exists j; split; [exact En|apply same_refl]]. rewrite EI in En. injection En as <-. rewrite (proj2 (Nat.ltb_lt _ _)) by exact Hn. eexists. split; [reflexivity|]. repeat split.
    - split; [reflexivity|]. split; [now left|]. split; [intros n i En; exists i; split; [exact En|apply same_refl]|]. intros lv p f EP Hf. eauto.
  Qed.
  Lemma later_trans t1 t2 t3 : later L t1 t2 -> later L t2 t3 -> later L t1 t3.
  Proof. intros A. induction 1; eauto using later. Qed.
  Lemma later_new t level lv d h t' : new_column L t level lv d = (h, t') -> later L t t'.
  Proof. intros E. replace t' with (snd (new_column L t level lv d)) by now rewrite E. apply later_column, later_refl. Qed.

  (** Every method of the builder gives a later table. *)
  Theorem methods_later t :
    (forall t', require_power_of_two_size L t = Ok t' -> later L t t') /\ (forall n t', require_fixed_size L t n = Ok t' -> later L t t') /\
    (forall level lv h t', add_committed L t level lv = (h, t') -> later L t t') /\
    (forall c x o sv h t', add_shifted L t c x o sv = Ok (h, t') -> later L t t') /\
    (forall c level lv h t', add_packed L t c level lv = Ok (h, t') -> later L t t') /\
    (forall level lv e h t', add_computed L t level lv e = Ok (h, t') -> later L t t') /\
    (forall c ix h t', add_selected L t c ix = Ok (h, t') -> later L t t') /\
    (forall c lv ix h t', add_selected_block L t c lv ix = Ok (h, t') -> later L t t') /\
    (forall c lv h t', add_zero_pad_upcast L t c lv = Ok (h, t') -> later L t t') /\
    (forall c lv nz h t', add_zero_pad L t c lv nz = Ok (h, t') -> later L t t') /\
    (forall level lv data h t', add_constant L t level lv data = (h, t') -> later L t t') /\
    (forall bits base level h t', add_static_exp L t bits base level = Ok (h, t') -> later L t t') /\
    (forall bits base h t', add_dynamic_exp L t bits base = Ok (h, t') -> later L t t') /\
    (forall level max h t', add_structured L t level max = Ok (h, t') -> later L t t') /\
    (forall level c h t', add_fixed L t level c = Ok (h, t') -> later L t t') /\
    (forall lv e, later L t (assert_zero L t lv e)) /\ (forall c t', assert_nonzero L t c = Ok t' -> later L t t') /\
    (forall dir ch cs mult sels t', flush_with_opts L t dir ch cs mult sels = Ok t' -> later L t t') /\
    (forall lv ch cs t', read L t lv ch cs = Ok t' -> later L t t').
  Proof.
    repeat split.
    - intros t' E. unfold require_power_of_two_size in E. destruct (t_spec L t) eqn:S; try discriminate. apply ok_inj in E. subst. apply later_spec; [apply later_refl|exact S].
    - intros n t' E. unfold require_fixed_size in E. destruct (t_spec L t) eqn:S; try discriminate. apply ok_inj in E. subst. apply later_spec; [apply later_refl|exact S].
    - intros * E. eapply later_new. exact E.
    - intros * E. unfold add_shifted in E. destruct (_ || _); [discriminate|]. apply ok_inj in E. eapply later_new. exact E.
    - intros * E. unfold add_packed in E. destruct (negb _); [discriminate|]. apply ok_inj in E. eapply later_new. exact E.
    - intros * E. unfold add_computed in E. destruct (of_opt (degree _)) as [d| |]; cbn [rbind] in E; try discriminate. destruct (d <=? 1).
      + destruct (of_opt (vars_usage _)); cbn [rbind] in E; try discriminate. destruct (of_opt (part_of L t lv)); cbn [rbind] in E; try discriminate.
        destruct (of_opt (omap _ _)); cbn [rbind] in E; try discriminate. destruct (remap_vars _ _); try discriminate. apply ok_inj in E. eapply later_new. exact E.
      + destruct (add_committed L t level lv) as [h2 t2] eqn:EA. destruct (ex_op _ _ _ _); cbn [rbind] in E; try discriminate. apply ok_inj in E. apply pair_equal_spec in E as [<- <-]. apply later_zero. eapply later_new. exact EA.
    - intros * E. unfold add_selected in E. destruct (negb _); [discriminate|]. apply ok_inj in E. eapply later_new. exact E.
    - intros * E. unfold add_selected_block in E. destruct (negb _); [discriminate|]. apply ok_inj in E. eapply later_new. exact E.
    - intros * E. unfold add_zero_pad_upcast in E. destruct (negb _); [discriminate|]. apply ok_inj in E. eapply later_new. exact E.
    - intros * E. unfold add_zero_pad in E. destruct (negb _); [discriminate|]. apply ok_inj in E. eapply later_new. exact E.
    - intros * E. eapply later_new. exact E.
    - intros * E. unfold add_static_exp in E. destruct (_ <? _); [discriminate|]. destruct (negb _); [discriminate|]. apply ok_inj in E. eapply later_new. exact E.
    - intros * E. unfold add_dynamic_exp in E. destruct (_ <? _); [discriminate|]. destruct (negb _); [discriminate|]. apply ok_inj in E. eapply later_new. exact E.
    - intros * E. unfold add_structured in E. destruct (t_spec L t); try discriminate. apply ok_inj in E. eapply later_new. exact E.
    - intros * E. unfold add_fixed in E. destruct (t_spec L t); try discriminate. destruct (_ =? _); [|discriminate]. apply ok_inj in E. eapply later_new. exact E.
    - intros. apply later_zero, later_refl.
    - intros * E. eapply later_nonzero; [apply later_refl|exact E].
    - intros * E. unfold flush_with_opts in E. destruct (negb _); [discriminate|]. apply ok_inj in E. subst. apply later_flush, later_refl.
    - intros * E. unfold read in E. destruct (negb _); [discriminate|]. apply ok_inj in E. subst. apply later_flush, later_refl.
  Qed.

  (* ------------------------------------------------------------------ *)
  (** * What is sent *)
  Lemma sent_app d c (x : list F) es es' : sent F d c x (es ++ es') = (sent F d c x es + sent F d c x es')%Z.
  Proof. induction es as [|e es IH]; cbn [sent app]; [reflexivity|]. rewrite IH. lia. Qed.
  Lemma sent_pos d c (x : list F) es : (0 < sent F d c x es)%Z <-> exists e, In e es /\ ev_channel F e = c /\ ev_dir F e = d /\ ev_values F e = x /\ ev_mult F e <> 0%N.
  Proof.
    assert (NN : forall es, (0 <= sent F d c x es)%Z) by (induction es0 as [|e r IH]; cbn [sent]; [lia|]; destruct (_ && _); lia).
    induction es as [|e es IH]; cbn [sent]; [split; [lia|intros (e & [] & _)]|]. specialize (NN es). unfold hits.
    destruct (dir_eqb (ev_dir F e) d) eqn:ED; cbn [andb].
    2: { rewrite Z.add_0_l, IH. split; [intros (e' & H & H'); exists e'; split; [now right|exact H']|]. intros (e' & [<-|H] & H1 & H2 & H3); [subst d; destruct (ev_dir F e); discriminate ED|eauto]. }
    assert (EDir : ev_dir F e = d) by (destruct (ev_dir F e), d; try discriminate ED; reflexivity).
    destruct (Nat.eqb_spec (ev_channel F e) c) as [EC|NC]; cbn [andb].
    2: { rewrite Z.add_0_l, IH. split; [intros (e' & H & H'); exists e'; split; [now right|exact H']|]. intros (e' & [<-|H] & H1 & H2 & H3); [congruence|eauto]. }
    destruct (key_dec F (ev_values F e) x) as [EX|NX].
    2: { rewrite Z.add_0_l, IH. split; [intros (e' & H & H'); exists e'; split; [now right|exact H']|]. intros (e' & [<-|H] & H1 & H2 & H3 & H4); [congruence|eauto 6]. }
    destruct (N.eq_dec (ev_mult F e) 0) as [Z0|NZ].
    - rewrite Z0. rewrite Z.add_0_l, IH. split; [intros (e' & H & H'); exists e'; split; [now right|exact H']|]. intros (e' & [<-|H] & H1 & H2 & H3 & H4); [congruence|eauto 6].
    - split; [|lia]. intros _. exists e. split; [now left|]. auto.
  Qed.

  Lemma table_part ts t p : tables_ok L ts -> In (t, p) (parts_of L ts) -> nth_error ts (t_id L t) = Some t /\ part_of L t (p_lv L p) = Some p /\ part_ok L t (p_lv L p) p.
  Proof.
    intros OK H. unfold CompileSpec.parts_of in H. apply in_concat in H as (l & Hl & H). apply in_map_iff in Hl as (t' & <- & Ht). apply in_map_iff in H as (p' & E & Hp). injection E as -> ->.
    apply In_nth_error in Ht as [n Ht]. destruct (OK _ _ Ht) as [TI TO]. rewrite TI. split; [exact Ht|]. destruct (part_in L t p Hp) as [lv E]. pose proof (proj2 TO lv p E) as PO. assert (EL : p_lv L p = lv) by apply PO. now rewrite EL.
  Qed.
  Lemma in_parts_of ts t lv p : nth_error ts (t_id L t) = Some t -> part_of L t lv = Some p -> In (t, p) (parts_of L ts).
  Proof.
    intros Ht Hp. unfold CompileSpec.parts_of. apply in_concat. exists (map (pair t) (parts_list L t)). split; [apply in_map_iff; exists t; split; [reflexivity|eapply nth_error_In; exact Ht]|].
    apply in_map. eapply in_parts. exact Hp.
  Qed.
  Lemma event_of ts sizes bs w e : In e (table_events L ts sizes bs w) ->
    (exists x, In x bs /\ e = boundary_event F x) \/
    exists t p f r j, In (t, p) (parts_of L ts) /\ In f (p_flushes L p) /\ r < size_of L sizes t /\ j < 2 ^ p_lv L p /\
      e = mkEvent F (tf_channel f) (tf_dir f) (tf_mult f) (map (fun k => w k r j) (tf_cols f)).
  Proof.
    intros H. unfold table_events in H. apply in_app_or in H as [H|H]; [left; apply in_map_iff in H as (x & <- & H); eauto|]. right.
    apply in_flat_map in H as ([t p] & H1 & H). apply in_flat_map in H as (f & H2 & H). cbn [fst snd] in *. unfold flush_sends in H. apply in_map_iff in H as ([r j] & <- & H).
    apply filter_In in H as [H _]. apply in_prod_iff in H as [Hr Hj]. apply in_seq in Hr, Hj. exists t, p, f, r, j. cbn [fst snd]. repeat split; auto; lia.
  Qed.
  Lemma event_in ts sizes bs w t p f r j : In (t, p) (parts_of L ts) -> In f (p_flushes L p) -> tf_sels f = [] -> r < size_of L sizes t -> j < 2 ^ p_lv L p ->
    In (mkEvent F (tf_channel f) (tf_dir f) (tf_mult f) (map (fun k => w k r j) (tf_cols f))) (table_events L ts sizes bs w).
  Proof.
    intros H1 H2 H3 Hr Hj. unfold table_events. apply in_or_app. right. apply in_flat_map. exists (t, p). split; [exact H1|]. apply in_flat_map. exists f. split; [exact H2|]. cbn [fst snd].
    unfold flush_sends. apply in_map_iff. exists (r, j). split; [reflexivity|]. apply filter_In. split; [apply in_prod_iff; split; apply in_seq; lia|]. now rewrite H3.
  Qed.

  (** A tuple that is pulled from a balanced channel is a row of the columns that are pushed. *)
  Theorem pulled_pushed ts sizes bs w c ks e : tables_ok L ts -> pushed_from L ts bs c ks -> balanced L c (table_events L ts sizes bs w) ->
    In e (table_events L ts sizes bs w) -> ev_channel F e = c -> ev_dir F e = Pull -> ev_mult F e <> 0%N ->
    exists r j, (forall k, In k ks -> r < rows_of sizes k /\ j < 2 ^ lv_of L ts k) /\ ev_values F e = map (fun k => w k r j) ks.
  Proof.
    intros OK [PB PF] BAL He E1 E2 E3. assert (P : (0 < sent F Pull c (ev_values F e) (table_events L ts sizes bs w))%Z) by (apply sent_pos; exists e; auto).
    rewrite <- BAL in P. apply sent_pos in P as (e' & He' & C1 & C2 & C3 & C4). apply event_of in He' as [(x & Hx & ->)|(t & p & f & r & j & H1 & H2 & Hr & Hj & ->)].
    - cbn [boundary_event ev_channel ev_dir] in *. specialize (PB x Hx C1). congruence.
    - cbn [ev_channel ev_dir ev_values ev_mult] in *. pose proof (PF t p f H1 H2 C1 C2) as EC. rewrite EC in C3.
      destruct (table_part ts t p OK H1) as (T1 & T2 & T3 & _ & _ & T4). exists r, j. split; [|congruence]. intros k Hk. destruct (T4 f H2 k) as (K1 & K2 & i & K3 & K4); [left; now rewrite EC|].
      split; [unfold rows_of; rewrite K1; exact Hr|]. unfold lv_of, info_of. rewrite K1, T1, K3, K4. exact Hj.
  Qed.
End Tables.

(* -------------------------------------------------------------------- *)
Section Gadgets.
  Variable L : nat.
  Notation F := (TF L).
  Notation tbl := (tbl L).
  Add Ring FringG : (f_ring F).
  Notation "x +' y" := (@fadd F x y) (at level 50, left associativity).
  Notation "x *' y" := (@fmul F x y) (at level 40, left associativity).

  Lemma computed_linear t level lv e d : table_ok L t -> expression L t lv e -> degree (ex_circuit L e) = Some d -> d <= 1 ->
    exists cols c p, add_computed L t level lv e = Ok (new_column L t level lv (CdComputed L cols c)) /\ part_of L t lv = Some p /\
      column_ok L t (length (t_cols L t)) (mkInfo L (t_id L t, length (t_cols L t)) (CdComputed L cols c) level lv false) /\
      forall f : cid -> F, evaluate c (map f cols) = evaluate (ex_circuit L e) (map f (p_cols L p)).
  Proof.
    intros OK HE ED Hd. pose proof HE as (ET & p & EP & OV). pose proof OV as [W NV]. unfold add_computed. rewrite ED. cbn [of_opt rbind]. rewrite (proj2 (Nat.leb_le _ _) Hd).
    destruct (vars_usage_correct F (ex_circuit L e)) as (u & EU & _). rewrite EU. cbn [of_opt rbind]. rewrite EP. cbn [of_opt rbind].
    destruct (computed_columns L t lv p _ u EP OV EU) as (cols & c' & OC & EC & W' & NV' & DG & IC & EV). rewrite OC. cbn [of_opt rbind]. rewrite EC.
    exists cols, c', p. split; [reflexivity|]. split; [reflexivity|]. split; [|exact EV].
    cbn [column_ok ci_def ci_lv]. split; [|split; [exact W'|split; [exact NV'|exists d; split; [congruence|exact Hd]]]]. intros k Hk. apply (proj2 OK lv p EP). now apply IC.
  Qed.

  (** The value of an expression over the columns of a table. *)
  Lemma handle_gives t h p f : handle L t h -> part_of L t (h_lv h) = Some p -> gives L (map f (p_cols L p)) (cvar (h_pidx h)) (f (h_id h)).
  Proof. intros (_ & _ & p' & E & N) E'. rewrite E in E'. injection E' as <-. apply gives_var. now rewrite nth_error_map, N. Qed.
  Lemma handle_over t h lv p : handle L t h -> h_lv h = lv -> part_of L t lv = Some p -> over_partition L p (cvar (h_pidx h)).
  Proof.
    intros (_ & _ & p' & E & N) <- E'. rewrite E in E'. injection E' as <-. split; [apply circuits_wf|]. assert (h_pidx h < length (p_cols L p')) by (apply nth_error_Some; congruence). cbn. lia.
  Qed.
  Lemma const_over (p : part L) v : over_partition L p (cconst v).
  Proof. split; [apply circuits_wf|cbn; lia]. Qed.
  Lemma add_over (p : part L) x y : over_partition L p x -> over_partition L p y -> over_partition L p (cadd x y).
  Proof. apply over_op. cbn; auto. Qed.
  Lemma mul_over (p : part L) x y : over_partition L p x -> over_partition L p y -> over_partition L p (cmul x y).
  Proof. apply over_op. cbn; auto. Qed.

  (** The column [h] of [t] has [2^lv] values in a cell, and the value says [P]. *)
  Definition column_says (t : tbl) (h : hcol) (lv : nat) (P : nat -> cells L -> nat -> nat -> Prop) : Prop :=
    h_lv h = lv /\ fst (h_id h) = t_id L t /\ exists i, nth_error (t_cols L t) (snd (h_id h)) = Some i /\ ci_id L i = h_id h /\ ci_lv L i = lv /\
      forall i' ts n w r j, same_column L i i' -> cell L ts n w i' r j -> P n w r j.
  Definition flushes (t : tbl) (lv : nat) (f : tflush) : Prop := exists p, part_of L t lv = Some p /\ In f (p_flushes L p).

  (** Any table that contains the column, among tables whose cells hold. *)
  Lemma column_holds ts sizes w t t' h lv P r j : later L t t' -> nth_error ts (t_id L t') = Some t' -> cells_hold L ts sizes w -> column_says t h lv P ->
    r < size_of L sizes t' -> j < 2 ^ lv -> P (log2_ceil (size_of L sizes t')) w r j.
  Proof.
    intros LT Ht CH (H1 & H2 & i & H3 & H4 & H5 & H6) Hr Hj. destruct (later_keeps L t t' LT) as (K1 & _ & K3 & _). destruct (K3 _ _ H3) as (i' & E & Q). pose proof Q as (Q1 & Q2 & Q3 & Q4).
    assert (R : rows_of sizes (h_id h) = size_of L sizes t') by (unfold rows_of, size_of; congruence).
    rewrite <- R. apply (H6 i' ts _ w r j Q). apply (CH (h_id h)).
    - unfold info_of. rewrite H2, <- K1, Ht. exact E.
    - lia.
    - rewrite R. pose proof (log2_ceil_le (size_of L sizes t')). lia.
    - rewrite Q4, H5. exact Hj.
  Qed.

  Lemma new_says' t level lv d h t' (P : nat -> cells L -> nat -> nat -> Prop) : new_column L t level lv d = (h, t') ->
    (forall i ts n w r j, ci_def L i = d -> ci_id L i = h_id h -> cell L ts n w i r j -> P n w r j) -> column_says t' h lv P.
  Proof.
    intros E H. unfold new_column in E. injection E as <- <-. split; [reflexivity|]. split; [reflexivity|]. cbn [t_cols with_part h_id snd].
    exists (mkInfo L (t_id L t, length (t_cols L t)) d level lv false). split; [rewrite nth_error_app2, Nat.sub_diag by lia; reflexivity|]. split; [reflexivity|]. split; [reflexivity|].
    intros i' ts n w r j (Q1 & Q2 & _) C. apply (H i' ts n); auto.
  Qed.
  Lemma says_later t t' h lv P : column_says t h lv P -> later L t t' -> column_says t' h lv P.
  Proof.
    intros (H1 & H2 & i & H3 & H4 & H5 & H6) LT. destruct (later_keeps L t t' LT) as (K1 & _ & K3 & _). destruct (K3 _ _ H3) as (i' & E & Q). pose proof Q as (Q1 & Q2 & Q3 & Q4).
    split; [exact H1|]. split; [congruence|]. exists i'. split; [exact E|]. split; [congruence|]. split; [congruence|]. intros i'' ts n w r j (S1 & S2 & S3 & S4). apply H6. repeat split; congruence.
  Qed.
  Lemma flushes_later t t' lv f : flushes t lv f -> later L t t' -> flushes t' lv f.
  Proof. intros (p & E & H) LT. destruct (later_keeps L t t' LT) as (_ & _ & _ & K). destruct (K _ _ _ E H) as (p' & E' & H'). exists p'. auto. Qed.
  Lemma add_flush_has t lv f : flushes (add_flush L t lv f) lv f.
  Proof. unfold add_flush. eexists. rewrite part_with, Nat.eqb_refl. split; [reflexivity|]. cbn [p_flushes]. apply in_or_app. right. now left. Qed.
  Lemma own_handles t (cs : list hcol) : (forall c, In c cs -> handle L t c) -> own_columns L t cs = true.
  Proof. intros H. apply forallb_forall. intros c Hc. apply Nat.eqb_eq. apply (H c Hc). Qed.

  (** ** Conjunctions *)
  Section Limbs.
    Variable b : nat.
    Hypothesis HL : b + 2 <= L.
    Notation W := (2 ^ b).

    Lemma bit_and_made t lv chan x y : table_ok L t -> handle L t x -> handle L t y -> h_lv x = lv -> h_lv y = lv ->
      exists g t', bit_and_new L b t lv chan x y = Ok (g, t') /\ table_ok L t' /\ extends L t t' /\ later L t t' /\ handle L t' (an_output g) /\ h_lv (an_output g) = lv /\ h_level (an_output g) = b /\
        column_says t' (an_merged g) lv (fun _ w r j => w (h_id (an_merged g)) r j = w (h_id x) r j +' w (h_id y) r j *' ext_basis L b 1 +' w (h_id (an_output g)) r j *' ext_basis L b 2) /\
        flushes t' lv (mkTf [h_id (an_merged g)] chan Pull 1 []).
    Proof.
      intros OK HX HY LX LY. unfold bit_and_new. destruct (add_committed L t b lv) as [o t1] eqn:EA.
      pose proof (new_committed L t b lv o t1 OK EA) as (OK1 & HO & EX1). pose proof (proj1 (proj2 (proj2 (methods_later L t))) b lv o t1 EA) as LT1.
      assert (LO : h_lv o = lv /\ h_level o = b) by (unfold add_committed, new_column in EA; injection EA as <- <-; auto). destruct LO as [LO LO'].
      apply (proj1 EX1) in HX, HY. set (e := mkEx L (t_id L t1) (cadd (cadd (cvar (h_pidx x)) (cmul (cvar (h_pidx y)) (cconst (ext_basis L b 1)))) (cmul (cvar (h_pidx o)) (cconst (ext_basis L b 2))))).
      pose proof HO as (TO & _ & p & EP & _). pose proof HX as (TX & _). pose proof HY as (TY & _). rewrite LO in EP.
      assert (HE : expression L t1 lv e).
      { split; [reflexivity|]. exists p. split; [exact EP|]. cbn [ex_circuit e]. apply add_over; [apply add_over|]; [eapply handle_over; eauto|apply mul_over; [eapply handle_over; eauto|apply const_over]|apply mul_over; [eapply handle_over; eauto|apply const_over]]. }
      destruct (computed_linear t1 (b + 2) lv e 1 OK1 HE eq_refl (le_n 1)) as (cols & c & p' & EC & EP' & CO & EV). rewrite EP in EP'. injection EP' as <-.
      unfold merge_and_columns, ex_op, ex_const_op, col_expr. cbn [ex_table ex_circuit]. rewrite TX, TY, TO, Nat.eqb_refl. cbn [rbind ex_table ex_circuit]. rewrite Nat.eqb_refl. cbn [rbind]. fold e.
      pose proof (new_column_ok L t1 (b + 2) lv _ OK1 CO) as (K & _ & _ & K2 & _).
      destruct (new_column L t1 (b + 2) lv (CdComputed L cols c)) as [m t2] eqn:EN. rewrite EC. cbn [rbind fst snd] in *. destruct K as (OK2 & HM & EX2).
      unfold read. rewrite own_handles by (intros h [<-|[]]; exact HM). cbn [negb rbind map].
      assert (RD : read L t2 lv chan [m] = Ok (add_flush L t2 lv (mkTf [h_id m] chan Pull 1 []))) by (unfold read; rewrite own_handles by (intros h [<-|[]]; exact HM); reflexivity).
      destruct (read_ok L t2 lv chan [m] _ OK2 ltac:(intros h [<-|[]]; auto) RD) as [OK3 EX3].
      set (t3 := add_flush L t2 lv _) in *. assert (LT2 : later L t1 t2) by (eapply later_new; exact EN). assert (LT3 : later L t2 t3) by (apply later_flush, later_refl).
      exists (mkAnd x y o m), t3. split; [reflexivity|]. cbn [an_output an_merged]. split; [exact OK3|].
      split; [split; [intros h Hh; now apply EX3, EX2, EX1|intros lv' e' He; now apply EX3, EX2, EX1]|]. split; [eapply later_trans; [exact LT1|eapply later_trans; eauto]|]. split; [now apply EX3, EX2|]. split; [exact LO|]. split; [exact LO'|].
      split; [|apply add_flush_has]. eapply says_later; [|exact LT3]. eapply new_says'; [exact EN|]. intros i ts n w r j ED EI C. unfold cell in C. cbv zeta in C. rewrite ED, EI in C.
      rewrite (EV (fun k => w k r j)) in C. cbn [ex_circuit e] in C. assert (G : gives L (map (fun k => w k r j) (p_cols L p)) (ex_circuit L e) (w (h_id x) r j +' w (h_id y) r j *' ext_basis L b 1 +' w (h_id o) r j *' ext_basis L b 2)).
      { cbn [ex_circuit e]. apply gives_add; [apply gives_add|]; [apply (handle_gives t1 x p (fun k => w k r j)); [exact HX|now rewrite LX]|..]; (apply gives_mul; [|apply gives_const]); [apply (handle_gives t1 y p (fun k => w k r j)); [exact HY|now rewrite LY]|apply (handle_gives t1 o p (fun k => w k r j)); [exact HO|now rewrite LO]]. }
      destruct G as [_ G]. cbn [ex_circuit e] in G. congruence.
    Qed.

    (** ** Increments *)
    Lemma incr_made t chan x c : table_ok L t -> handle L t x -> handle L t c -> h_lv x = 0 -> h_lv c = 0 ->
      exists g t', incr_new L b t chan x c = Ok (g, t') /\ table_ok L t' /\ extends L t t' /\ later L t t' /\
        handle L t' (in_output g) /\ h_lv (in_output g) = 0 /\ h_level (in_output g) = b /\ handle L t' (in_carry_out g) /\ h_lv (in_carry_out g) = 0 /\ h_level (in_carry_out g) = 0 /\
        column_says t' (in_merged g) 0 (fun _ w r j => w (h_id (in_merged g)) r j = w (h_id x) r j +' w (h_id (in_output g)) r j *' ext_basis L b 1 +' w (h_id c) r j *' ext_basis L b 2 +'
          w (h_id (in_carry_out g)) r j *' (ext_basis L b 2 *' ext_basis L 0 1)) /\
        flushes t' 0 (mkTf [h_id (in_merged g)] chan Pull 1 []).
    Proof.
      intros OK HX HY LX LY. unfold incr_new. destruct (add_committed L t b 0) as [o t1] eqn:EA.
      pose proof (new_committed L t b 0 o t1 OK EA) as (OK1 & HO & EX1). pose proof (proj1 (proj2 (proj2 (methods_later L t))) b 0 o t1 EA) as LT1.
      assert (LO : h_lv o = 0 /\ h_level o = b) by (unfold add_committed, new_column in EA; injection EA as <- <-; auto). destruct LO as [LO LO'].
      destruct (add_committed L t1 0 0) as [q t1'] eqn:EA'.
      pose proof (new_committed L t1 0 0 q t1' OK1 EA') as (OK1' & HQ & EX1'). pose proof (proj1 (proj2 (proj2 (methods_later L t1))) 0 0 q t1' EA') as LT1'.
      assert (LQ : h_lv q = 0 /\ h_level q = 0) by (unfold add_committed, new_column in EA'; injection EA' as <- <-; auto). destruct LQ as [LQ LQ'].
      apply (proj1 EX1) in HX, HY. apply (proj1 EX1') in HX, HY, HO.
      set (e := mkEx L (t_id L t1') (cadd (cadd (cadd (cvar (h_pidx x)) (cmul (cvar (h_pidx o)) (cconst (ext_basis L b 1)))) (cmul (cvar (h_pidx c)) (cconst (ext_basis L b 2)))) (cmul (cvar (h_pidx q)) (cconst (fmul (ext_basis L b 2) (ext_basis L 0 1)))))).
      pose proof HQ as (TQ & _ & p & EP & _). pose proof HX as (TX & _). pose proof HY as (TY & _). pose proof HO as (TO & _). rewrite LQ in EP.
      assert (HE : expression L t1' 0 e).
      { split; [reflexivity|]. exists p. split; [exact EP|]. cbn [ex_circuit e]. apply add_over; [apply add_over; [apply add_over|]|]; [eapply handle_over; eauto|..]; (apply mul_over; [eapply handle_over; eauto|apply const_over]). }
      destruct (computed_linear t1' (b + 2) 0 e 1 OK1' HE eq_refl (le_n 1)) as (cols & cc & p' & EC & EP' & CO & EV). rewrite EP in EP'. injection EP' as <-.
      unfold merge_incr_cols, ex_op, ex_const_op, col_expr. cbv zeta. cbn [ex_table ex_circuit]. rewrite TX, TY, TO, TQ, Nat.eqb_refl. cbn [rbind ex_table ex_circuit]. rewrite Nat.eqb_refl. cbn [rbind ex_table ex_circuit]. rewrite Nat.eqb_refl. cbn [rbind]. fold e.
      pose proof (new_column_ok L t1' (b + 2) 0 _ OK1' CO) as (K & _ & _ & K2 & _).
      destruct (new_column L t1' (b + 2) 0 (CdComputed L cols cc)) as [m t2] eqn:EN. rewrite EC. cbn [rbind fst snd] in *. destruct K as (OK2 & HM & EX2).
      assert (RD : flush_with_opts L t2 Pull chan [m] 1 [] = Ok (add_flush L t2 0 (mkTf [h_id m] chan Pull 1 []))) by (unfold flush_with_opts; rewrite own_handles by (intros h [<-|[]]; exact HM); reflexivity).
      destruct (flush_opts_ok L t2 Pull chan [m] 1 [] _ OK2 ltac:(intros h [[<-|[]]|[]]; auto) RD) as [OK3 EX3]. rewrite RD. cbn [rbind].
      set (t3 := add_flush L t2 0 _) in *. assert (LT2 : later L t1' t2) by (eapply later_new; exact EN). assert (LT3 : later L t2 t3) by (apply later_flush, later_refl).
      exists (mkIncr x c o q m), t3. split; [reflexivity|]. cbn [in_output in_carry_out in_merged]. split; [exact OK3|].
      split; [split; [intros h Hh; now apply EX3, EX2, EX1', EX1|intros lv' e' He; now apply EX3, EX2, EX1', EX1]|]. split; [eapply later_trans; [exact LT1|eapply later_trans; [exact LT1'|eapply later_trans; eauto]]|].
      split; [now apply EX3, EX2|]. split; [exact LO|]. split; [exact LO'|]. split; [now apply EX3, EX2|]. split; [exact LQ|]. split; [exact LQ'|].
      split; [|apply add_flush_has]. eapply says_later; [|exact LT3]. eapply new_says'; [exact EN|]. intros i ts n w r j ED EI C. unfold cell in C. cbv zeta in C. rewrite ED, EI in C.
      rewrite (EV (fun k => w k r j)) in C. match goal with |- _ = ?v => assert (G : gives L (map (fun k => w k r j) (p_cols L p)) (ex_circuit L e) v) end.
      { cbn [ex_circuit e]. apply gives_add; [apply gives_add; [apply gives_add|]|]; [apply (handle_gives t1' x p (fun k => w k r j)); [exact HX|now rewrite LX]|..]; (apply gives_mul; [|apply gives_const]);
          [apply (handle_gives t1' o p (fun k => w k r j)); [exact HO|now rewrite LO]|apply (handle_gives t1' c p (fun k => w k r j)); [exact HY|now rewrite LY]|apply (handle_gives t1' q p (fun k => w k r j)); [exact HQ|now rewrite LQ]]. }
      destruct G as [_ G]. cbn [ex_circuit e] in C, G. congruence.
    Qed.
  End Limbs.

  (** ** Tables to look up *)
  Lemma multiplicity_later t n : later L t (snd (add_multiplicity_bits L t n)).
  Proof.
    revert t. induction n as [|n IH]; intros t; cbn [add_multiplicity_bits]; [apply later_refl|]. destruct (add_committed L t 0 0) as [h t1] eqn:E1. specialize (IH t1). destruct (add_multiplicity_bits L t1 n) as [hs t2] eqn:E2.
    cbn [snd] in *. eapply later_trans; [|exact IH]. eapply (proj1 (proj2 (proj2 (methods_later L t)))). exact E1.
  Qed.
  Lemma flush_opts_later t dir ch cs m sels t' : flush_with_opts L t dir ch cs m sels = Ok t' -> t' = add_flush L t 0 (mkTf (map h_id cs) ch dir m (map h_id sels)).
  Proof. unfold flush_with_opts. destruct (negb _); [discriminate|]. intros E; apply ok_inj in E. now symmetry. Qed.
  Lemma push_bits_later chan cols bits : forall t i t', push_bits L t chan cols i bits = Ok t' -> later L t t'.
  Proof.
    induction bits as [|h bits IH]; intros t i t'; cbn [push_bits]; [intros E; apply ok_inj in E as <-; apply later_refl|]. destruct (flush_with_opts _ _ _ _ _ _ _) as [t1| |] eqn:E1; try discriminate. cbn [rbind]. intros E.
    eapply later_trans; [|eapply IH; exact E]. apply flush_opts_later in E1 as ->. apply later_flush, later_refl.
  Qed.
  Lemma producer_later t chan cols n bits t' : lookup_producer_new L t chan cols n = Ok (bits, t') -> later L t t'.
  Proof.
    unfold lookup_producer_new. pose proof (multiplicity_later t n) as H. destruct (add_multiplicity_bits L t n) as [hs t1]. cbn [snd] in H. destruct (push_bits _ _ _ _ _ _) as [t2| |] eqn:E; try discriminate. cbn [rbind].
    intros E'; apply ok_inj in E'. injection E' as <- <-. eapply later_trans; [exact H|]. eapply push_bits_later. exact E.
  Qed.

  Lemma table_lookup_made t n level c chan perm m g t' : table_lookup_new L t n level c chan perm m = Ok (g, t') ->
    later L t t' /\ t_spec L t' = Fixed n /\
    column_says t' (tl_ordered g) 0 (fun k w r j => evaluate c (vertex k r) = Some (w (h_id (tl_ordered g)) r j)) /\ column_says t' (tl_sorted g) 0 (fun _ _ _ _ => True) /\
    flushes t' 0 (mkTf [h_id (tl_sorted g)] perm Pull 1 []).
  Proof.
    unfold table_lookup_new, require_fixed_size. destruct (t_spec L t) eqn:ES; try discriminate. cbn [rbind]. set (t1 := mkTbl _ _ _ _ _).
    assert (S1 : later L t t1) by (apply later_spec; [apply later_refl|exact ES]).
    unfold add_fixed. change (t_spec L t1) with (Fixed n). cbn [rbind]. destruct (n =? n_vars c); [|discriminate]. destruct (new_column L t1 level 0 (CdFixed L c)) as [o t2] eqn:EO. cbn [rbind].
    assert (S2 : later L t1 t2) by (eapply later_new; exact EO). destruct (add_committed L t2 level 0) as [s t3] eqn:EC. assert (S3 : later L t2 t3) by (eapply later_new; exact EC).
    destruct (flush_with_opts L t3 Push perm [o] 1 []) as [t4| |] eqn:E4; try discriminate. cbn [rbind]. destruct (flush_with_opts L t4 Pull perm [s] 1 []) as [t5| |] eqn:E5; try discriminate. cbn [rbind].
    destruct (lookup_producer_new L t5 chan [s] m) as [[bits t6]| |] eqn:E6; try discriminate. cbn [rbind]. intros E; apply ok_inj in E. injection E as <- <-. cbn [tl_ordered tl_sorted].
    apply producer_later in E6. apply flush_opts_later in E4, E5. cbn [map] in E4, E5. assert (S4 : later L t3 t4) by (subst t4; apply later_flush, later_refl). assert (S5 : later L t4 t5) by (subst t5; apply later_flush, later_refl).
    assert (R3 : later L t3 t6) by (eapply later_trans; [exact S4|eapply later_trans; eauto]). assert (R2 : later L t2 t6) by (eapply later_trans; eauto). assert (R1 : later L t1 t6) by (eapply later_trans; eauto).
    split; [eapply later_trans; eauto|]. split; [destruct (later_keeps L t1 t6 R1) as (_ & [K|K] & _); [discriminate K|exact K]|].
    split; [eapply says_later; [|exact R2]; eapply new_says'; [exact EO|]; intros i ts k w r j ED EI C; unfold cell in C; cbv zeta in C; now rewrite ED, EI in C|].
    split; [eapply says_later; [|exact R3]; eapply new_says'; [exact EC|]; auto|]. eapply flushes_later; [|exact E6]. subst t5. apply add_flush_has.
  Qed.

  Lemma log2_ceil_2 n : log2_ceil (2 ^ n) = n.
  Proof.
    apply (Nat.pow_inj_r 2); [lia|]. apply log2_ceil_pow. unfold is_power_of_two. rewrite Nat.log2_pow2, Nat.eqb_refl by lia. pose proof (Nat.pow_nonzero 2 n). destruct (Nat.eqb_spec (2 ^ n) 0); [lia|reflexivity].
  Qed.
  Lemma fixed_size ts sizes t n : check_table_sizes (map (t_spec L) ts) sizes = Ok tt -> nth_error ts (t_id L t) = Some t -> t_spec L t = Fixed n -> size_of L sizes t = 2 ^ n.
  Proof.
    unfold check_table_sizes. rewrite map_length. destruct (Nat.eqb_spec (length sizes) (length ts)) as [E|]; [|discriminate]. cbn [negb]. destruct (forallb _ _) eqn:H; [|discriminate]. intros _ Ht ES. rewrite forallb_forall in H.
    assert (Hlt : t_id L t < length sizes) by (rewrite E; apply nth_error_Some; congruence). specialize (H (nth (t_id L t) sizes 0, nth (t_id L t) (map (t_spec L) ts) Arbitrary)). 
    rewrite <- combine_nth in H by (now rewrite map_length). assert (HC : t_id L t < length (combine sizes (map (t_spec L) ts))) by (rewrite combine_length, map_length; lia). specialize (H (nth_In _ _ HC)). rewrite combine_nth in H by (now rewrite map_length). cbn [fst snd] in H.
    replace (nth (t_id L t) (map (t_spec L) ts) Arbitrary) with (Fixed n) in H. 2: { symmetry. apply nth_error_nth. rewrite nth_error_map, Ht. cbn. now rewrite ES. }
    apply Nat.eqb_eq in H. exact H.
  Qed.

  (** Every tuple that is read from a lookup table is one of its entries. *)
  Theorem lookup_sound ts sizes bs w t0 n level c chan perm m g t1 t e :
    tables_ok L ts -> check_table_sizes (map (t_spec L) ts) sizes = Ok tt -> cells_hold L ts sizes w ->
    table_lookup_new L t0 n level c chan perm m = Ok (g, t1) -> later L t1 t -> nth_error ts (t_id L t) = Some t ->
    pushed_from L ts bs chan [h_id (tl_sorted g)] -> pushed_from L ts bs perm [h_id (tl_ordered g)] ->
    balanced L chan (table_events L ts sizes bs w) -> balanced L perm (table_events L ts sizes bs w) ->
    In e (table_events L ts sizes bs w) -> ev_channel F e = chan -> ev_dir F e = Pull -> ev_mult F e <> 0%N ->
    exists r v, r < 2 ^ n /\ evaluate c (vertex n r) = Some v /\ ev_values F e = [v].
  Proof.
    intros OK CT CH EM LT Ht PC PP BC BP He E1 E2 E3. destruct (table_lookup_made _ _ _ _ _ _ _ _ _ EM) as (_ & SP & SO & SS & FL). destruct (later_keeps L t1 t LT) as (KI & KS & KC & KF).
    assert (SPt : t_spec L t = Fixed n) by (destruct KS as [KS|KS]; congruence). pose proof (fixed_size ts sizes t n CT Ht SPt) as SZ.
    assert (POS : forall h P, column_says t1 h 0 P -> rows_of sizes (h_id h) = size_of L sizes t /\ lv_of L ts (h_id h) = 0).
    { intros h P (_ & H2 & i & H3 & _ & H5 & _). split; [unfold rows_of, size_of; congruence|]. destruct (KC _ _ H3) as (i' & E & _ & _ & _ & Q). unfold lv_of, info_of. rewrite H2, <- KI, Ht, E. congruence. }
    destruct (pulled_pushed L ts sizes bs w chan _ e OK PC BC He E1 E2 E3) as (r & j & B & V). destruct (B _ (or_introl eq_refl)) as [Hr Hj]. destruct (POS _ _ SS) as [P1 P2]. rewrite P1 in Hr. rewrite P2 in Hj.
    destruct (flushes_later _ _ _ _ FL LT) as (p & EP & HF). pose proof (in_parts_of L ts t 0 p Ht EP) as HP. destruct (table_part L ts t p OK HP) as (_ & EP' & _).
    assert (PL : p_lv L p = 0) by (destruct (OK _ _ Ht) as [_ TO]; destruct (proj2 TO 0 p EP) as (X & _); exact X).
    pose proof (event_in L ts sizes bs w t p _ r j HP HF eq_refl Hr ltac:(now rewrite PL)) as HE. cbn [tf_channel tf_dir tf_mult tf_cols] in HE.
    destruct (pulled_pushed L ts sizes bs w perm _ _ OK PP BP HE eq_refl eq_refl ltac:(discriminate)) as (r' & j' & B' & V'). destruct (B' _ (or_introl eq_refl)) as [Hr' Hj']. destruct (POS _ _ SO) as [P1' P2']. rewrite P1' in Hr'. rewrite P2' in Hj'.
    cbn [ev_values map] in V, V'. pose proof (column_holds ts sizes w t1 t (tl_ordered g) 0 _ r' j' LT Ht CH SO Hr' Hj') as CL. cbv beta in CL. rewrite SZ, log2_ceil_2 in CL.
    exists r', (w (h_id (tl_ordered g)) r' j'). split; [now rewrite <- SZ|]. split; [exact CL|]. congruence.
  Qed.

  Section Limbs2.
    Variable b : nat.
    Hypothesis HL : b + 2 <= L.
    Notation W := (2 ^ b).

    (** A conjunction that looks up its result is the bitwise conjunction. *)
    Theorem bit_and_sound ts sizes bs w t0 chan perm m g t1 tl ta lv x y an ta1 t r j :
      tables_ok L ts -> check_table_sizes (map (t_spec L) ts) sizes = Ok tt -> cells_hold L ts sizes w ->
      bitand_lookup_new L b t0 chan perm m = Ok (g, t1) -> later L t1 tl -> nth_error ts (t_id L tl) = Some tl ->
      table_ok L ta -> handle L ta x -> handle L ta y -> h_lv x = lv -> h_lv y = lv -> bit_and_new L b ta lv chan x y = Ok (an, ta1) -> later L ta1 t -> nth_error ts (t_id L t) = Some t ->
      pushed_from L ts bs chan [h_id (tl_sorted g)] -> pushed_from L ts bs perm [h_id (tl_ordered g)] ->
      balanced L chan (table_events L ts sizes bs w) -> balanced L perm (table_events L ts sizes bs w) ->
      r < size_of L sizes t -> j < 2 ^ lv -> limb L b (w (h_id x) r j) -> limb L b (w (h_id y) r j) -> limb L b (w (h_id (an_output an)) r j) ->
      enc L (w (h_id (an_output an)) r j) = N.land (enc L (w (h_id x) r j)) (enc L (w (h_id y) r j)).
    Proof.
      intros OK CT CH EM LT Htl OA HX HY LX LY EA LA Ht PC PP BC BP Hr Hj BX BY BO.
      destruct (bit_and_made b ta lv chan x y OA HX HY LX LY) as (an' & ta' & EA' & OA' & _ & _ & _ & _ & _ & SM & FM). rewrite EA in EA'. apply ok_inj in EA'. injection EA' as <- <-.
      destruct (flushes_later _ _ _ _ FM LA) as (p & EP & HF). pose proof (in_parts_of L ts t lv p Ht EP) as HP.
      assert (PL : p_lv L p = lv) by (destruct (OK _ _ Ht) as [_ TO]; destruct (proj2 TO lv p EP) as (X & _); exact X).
      pose proof (event_in L ts sizes bs w t p _ r j HP HF eq_refl Hr ltac:(now rewrite PL)) as HE. cbn [tf_channel tf_dir tf_mult tf_cols] in HE.
      destruct (lookup_sound ts sizes bs w t0 _ _ _ chan perm m g t1 tl _ OK CT CH EM LT Htl PC PP BC BP HE eq_refl eq_refl ltac:(discriminate)) as (q & v & Hq & EV & VV). cbn [ev_values map] in VV.
      pose proof (column_holds ts sizes w ta1 t (an_merged an) lv _ r j LA Ht CH SM Hr Hj) as CM. cbv beta in CM.
      destruct (bitand_table L b HL q) as [_ BT]. rewrite EV in BT. injection BT as ->. injection VV as VV. rewrite VV in CM.
      unfold limb in *. apply limb_lt in BX, BY, BO. apply (proj1 (and_entries L b HL _ _ _ BX BY BO)). exists q. split; [exact Hq|]. rewrite (dec_limbs3 L b HL) by auto using inr_S. rewrite !dec_enc. symmetry. exact CM.
    Qed.

    (** An increment that looks up its result adds the carry. *)
    Theorem incr_lookup_sound ts sizes bs w t0 chan perm m g t1 tl ta x c ic ta1 t r :
      tables_ok L ts -> check_table_sizes (map (t_spec L) ts) sizes = Ok tt -> cells_hold L ts sizes w ->
      incr_lookup_new L b t0 chan perm m = Ok (g, t1) -> later L t1 tl -> nth_error ts (t_id L tl) = Some tl ->
      table_ok L ta -> handle L ta x -> handle L ta c -> h_lv x = 0 -> h_lv c = 0 -> incr_new L b ta chan x c = Ok (ic, ta1) -> later L ta1 t -> nth_error ts (t_id L t) = Some t ->
      pushed_from L ts bs chan [h_id (tl_sorted g)] -> pushed_from L ts bs perm [h_id (tl_ordered g)] ->
      balanced L chan (table_events L ts sizes bs w) -> balanced L perm (table_events L ts sizes bs w) ->
      r < size_of L sizes t -> limb L b (w (h_id x) r 0) -> limb L 0 (w (h_id c) r 0) -> limb L b (w (h_id (in_output ic)) r 0) -> limb L 0 (w (h_id (in_carry_out ic)) r 0) ->
      (enc L (w (h_id (in_output ic)) r 0%nat) + 2 ^ N.of_nat W * enc L (w (h_id (in_carry_out ic)) r 0%nat) = enc L (w (h_id x) r 0%nat) + enc L (w (h_id c) r 0%nat))%N.
    Proof.
      intros OK CT CH EM LT Htl OA HX HY LX LY EA LA Ht PC PP BC BP Hr BX BY BO BQ.
      destruct (incr_made b ta chan x c OA HX HY LX LY) as (an' & ta' & EA' & OA' & _ & _ & _ & _ & _ & _ & _ & _ & SM & FM). rewrite EA in EA'. apply ok_inj in EA'. injection EA' as <- <-.
      destruct (flushes_later _ _ _ _ FM LA) as (p & EP & HF). pose proof (in_parts_of L ts t 0 p Ht EP) as HP.
      assert (PL : p_lv L p = 0) by (destruct (OK _ _ Ht) as [_ TO]; destruct (proj2 TO 0 p EP) as (X & _); exact X).
      pose proof (event_in L ts sizes bs w t p _ r 0 HP HF eq_refl Hr ltac:(rewrite PL; cbn; lia)) as HE. cbn [tf_channel tf_dir tf_mult tf_cols] in HE.
      destruct (lookup_sound ts sizes bs w t0 _ _ _ chan perm m g t1 tl _ OK CT CH EM LT Htl PC PP BC BP HE eq_refl eq_refl ltac:(discriminate)) as (q & v & Hq & EV & VV). cbn [ev_values map] in VV.
      pose proof (column_holds ts sizes w ta1 t (in_merged ic) 0 _ r 0 LA Ht CH SM Hr ltac:(cbn; lia)) as CM. cbv beta in CM.
      destruct (incr_table L b HL q) as [_ BT]. rewrite EV in BT. injection BT as ->. injection VV as VV. rewrite VV in CM.
      assert (BIT : forall v : F, limb L 0 v -> exists k : bool, v = fb L k /\ enc L v = N.b2n k).
      { intros v Hv. unfold limb in Hv. change (2 ^ N.of_nat (2 ^ 0))%N with 2%N in Hv. assert (D : enc L v = 0%N \/ enc L v = 1%N) by lia. destruct D as [D|D]; [exists false|exists true]; (split; [|exact D]); cbn [fb]; rewrite <- (dec_enc L v), D; [apply dec_0|apply dec_1]. }
      destruct (BIT _ BY) as (ci & EC & NC). destruct (BIT _ BQ) as (co & EQ & NQ). rewrite NC, NQ. unfold limb in BX, BO. apply limb_lt in BX, BO.
      apply (proj1 (incr_entries L b HL _ _ _ _ BX BO)). exists q. split; [exact Hq|]. rewrite (dec_limbs3 L b HL _ _ _ BX BO (pair_inr L b HL ci co)). rewrite !dec_enc, (dec_pair L). rewrite <- EC, <- EQ, CM. ring.
    Qed.
  End Limbs2.
End Gadgets.
