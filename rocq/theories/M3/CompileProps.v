(** C78: the M3 table builder and the compilation of its tables to a constraint system. *)
Require Import Coq.ZArith.ZArith Coq.NArith.NArith Coq.Arith.Arith Coq.Lists.List Coq.Bool.Bool Lia.
From Verif Require Import Base.Fld Base.Lists Base.Sums Math.MleSpec Math.MleModel Math.ArithModel Math.ArithProofs Math.ArithProps Field.TowerModel Field.TowerProofs Field.Examples
  Transparent.TransparentModel Transparent.TransparentProps Transparent.TowerBasisProps Transparent.ShiftModel Protocol.Proto Protocol.Soundness Ntt.NttSpec Ntt.SubspaceModel Ntt.SubspaceProps
  Sumcheck.SumcheckModel Sumcheck.SumcheckProps Sumcheck.ZerocheckModel Gkr.ExpModel Piop.MetaModel Piop.MetaProps
  Evalcheck.OracleModel Evalcheck.EvalModel Evalcheck.EvalSpec Evalcheck.OracleProps Evalcheck.EvalProofs Evalcheck.EvalExtend Evalcheck.SymbolicModel Evalcheck.SymbolicProps
  Evalcheck.GreedyModel Evalcheck.GreedyWork Evalcheck.GreedySets Cs.ChannelModel Cs.ChannelProps Cs.BalanceAlg Cs.FlushModel Cs.FlushProofs Cs.FlushProps
  Cs.VerifyModel Cs.VerifyExp Cs.VerifyZero Cs.VerifyProps Cs.TotalModel Cs.TotalProps
  M3.CompileModel M3.CompileSpec M3.RemapProofs M3.BuilderProofs M3.CompileProofs M3.TranslateProofs M3.SystemProofs M3.CellProofs M3.EncodeProofs.
Import ListNotations.
Local Close Scope N_scope.
Local Close Scope Z_scope.
Local Open Scope nat_scope.
Local Opaque usize_bits.

(* -------------------------------------------------------------------- *)
(** * The builder *)
Section Builder.
  Variable L : nat.
  Notation F := (TF L).

  (** Expressions over the columns [hs] with [2^lv] values per row. *)
  Inductive expr_over (hs : list hcol) (lv : nat) : ex L -> Prop :=
  | eo_col h : In h hs -> h_lv h = lv -> expr_over hs lv (col_expr L h)
  | eo_op op a b e : In op [cadd; csub; cmul] -> expr_over hs lv a -> expr_over hs lv b -> ex_op L op a b = Ok e -> expr_over hs lv e
  | eo_const op a v : In op [cadd; csub; cmul] -> expr_over hs lv a -> expr_over hs lv (ex_const_op L op a v)
  | eo_pow a n : (n < 2 ^ 64)%N -> expr_over hs lv a -> expr_over hs lv (mkEx L (ex_table L a) (cpow (ex_circuit L a) n)).

  (** [built id t hs]: the table [t] with number [id] is made by calls of the builder that returned the columns [hs]. *)
  Inductive built (id : nat) : tbl L -> list hcol -> Prop :=
  | b_new : built id (table_new L id) []
  | b_power_of_two t hs t' : built id t hs -> require_power_of_two_size L t = Ok t' -> built id t' hs
  | b_fixed_size t hs n t' : built id t hs -> require_fixed_size L t n = Ok t' -> built id t' hs
  | b_committed t hs level lv h t' : built id t hs -> add_committed L t level lv = (h, t') -> built id t' (h :: hs)
  | b_shifted t hs c b o sv h t' : built id t hs -> In c hs -> add_shifted L t c b o sv = Ok (h, t') -> built id t' (h :: hs)
  | b_packed t hs c level lv h t' : built id t hs -> In c hs -> add_packed L t c level lv = Ok (h, t') -> built id t' (h :: hs)
  | b_computed t hs level lv e h t' : built id t hs -> expr_over hs lv e -> add_computed L t level lv e = Ok (h, t') -> built id t' (h :: hs)
  | b_selected t hs c ix h t' : built id t hs -> In c hs -> add_selected L t c ix = Ok (h, t') -> built id t' (h :: hs)
  | b_block t hs c lv ix h t' : built id t hs -> In c hs -> add_selected_block L t c lv ix = Ok (h, t') -> built id t' (h :: hs)
  | b_upcast t hs c lv h t' : built id t hs -> In c hs -> add_zero_pad_upcast L t c lv = Ok (h, t') -> built id t' (h :: hs)
  | b_pad t hs c lv nz h t' : built id t hs -> In c hs -> add_zero_pad L t c lv nz = Ok (h, t') -> built id t' (h :: hs)
  | b_constant t hs level lv data h t' : built id t hs -> length data = 2 ^ lv -> add_constant L t level lv data = (h, t') -> built id t' (h :: hs)
  | b_static t hs bits base level h t' : built id t hs -> (forall b, In b bits -> In b hs /\ h_lv b = 0) -> add_static_exp L t bits base level = Ok (h, t') -> built id t' (h :: hs)
  | b_dynamic t hs bits base h t' : built id t hs -> (forall b, In b (base :: bits) -> In b hs /\ h_lv b = 0) -> add_dynamic_exp L t bits base = Ok (h, t') -> built id t' (h :: hs)
  | b_structured t hs level max h t' : built id t hs -> add_structured L t level max = Ok (h, t') -> built id t' (h :: hs)
  | b_fixed t hs level c h t' : built id t hs -> add_fixed L t level c = Ok (h, t') -> built id t' (h :: hs)
  | b_zero t hs lv e : built id t hs -> expr_over hs lv e -> built id (assert_zero L t lv e) hs
  | b_nonzero t hs c t' : built id t hs -> In c hs -> assert_nonzero L t c = Ok t' -> built id t' hs
  | b_flush t hs dir ch cs mult sels t' : built id t hs -> (forall c, In c cs \/ In c sels -> In c hs /\ h_lv c = 0) -> flush_with_opts L t dir ch cs mult sels = Ok t' -> built id t' hs
  | b_read t hs lv ch cs t' : built id t hs -> (forall c, In c cs -> In c hs /\ h_lv c = lv) -> read L t lv ch cs = Ok t' -> built id t' hs.

  Lemma n_vars_cpow (a : circuit F) e : n_vars (cpow a e) = n_vars a.
  Proof. unfold cpow. rewrite n_vars_app. cbn. lia. Qed.

  Lemma over_op (p : part L) op a b : In op [cadd; csub; cmul] -> over_partition L p a -> over_partition L p b -> over_partition L p (op a b).
  Proof.
    intros Ho [A1 A2] [B1 B2]. destruct (circuits_wf F) as (_ & _ & OW & _). destruct (OW a b A1 B1) as (W1 & W2 & W3).
    destruct Ho as [<-|[<-|[<-|[]]]]; (split; [assumption|]); [rewrite n_vars_cadd|unfold csub; rewrite n_vars_cadd|rewrite n_vars_cmul]; lia.
  Qed.

  Lemma expr_ok t hs lv e : (forall h, In h hs -> handle L t h) -> expr_over hs lv e -> expression L t lv e.
  Proof.
    intros HH. induction 1 as [h Hh HL|op a b e Ho HA IHA HB IHB HE|op a v Ho HA IHA|a n Hn HA IHA].
    - destruct (HH h Hh) as (H1 & _ & p & H2 & H3). rewrite HL in H2. split; [exact H1|]. exists p. split; [exact H2|]. cbn [col_expr ex_circuit]. split; [apply circuits_wf|].
      assert (h_pidx h < length (p_cols L p)) by (apply nth_error_Some; congruence). cbn. lia.
    - destruct IHA as (TA & p & PA & OA). destruct IHB as (TB & p' & PB & OB). rewrite PA in PB. injection PB as <-. unfold ex_op in HE. destruct (_ =? _); [|discriminate]. apply ok_inj in HE. subst e.
      split; [exact TA|]. exists p. split; [exact PA|]. now apply over_op.
    - destruct IHA as (TA & p & PA & OA). split; [exact TA|]. exists p. split; [exact PA|]. cbn [ex_const_op ex_circuit]. apply over_op; [exact Ho|exact OA|]. split; [apply circuits_wf|cbn; lia].
    - destruct IHA as (TA & p & PA & O1 & O2). split; [exact TA|]. exists p. split; [exact PA|]. cbn [ex_circuit]. split; [now apply circuits_wf|]. now rewrite n_vars_cpow.
  Qed.

  Lemma new_ok id : table_ok L (table_new L id).
  Proof.
    split.
    - intros [|n] i E; discriminate.
    - intros lv p E. unfold part_of, table_new in E. cbn [t_parts] in E. destruct lv; discriminate.
  Qed.

  (** Whatever calls a program makes, the table is well formed, the columns that the calls returned are columns of it, and
      expressions over these columns refer to columns of one partition. *)
  Theorem builder_correct id t hs : built id t hs ->
    table_ok L t /\ t_id L t = id /\ (forall h, In h hs -> handle L t h) /\ (forall lv e, expr_over hs lv e -> expression L t lv e).
  Proof.
    intros B. enough (E : table_ok L t /\ t_id L t = id /\ forall h, In h hs -> handle L t h).
    { destruct E as (E1 & E2 & E3). split; [exact E1|]. split; [exact E2|]. split; [exact E3|]. intros lv e. now apply expr_ok. }
    induction B as [|t hs t' B IH E|t hs n t' B IH E|t hs level lv h t' B IH E|t hs c b o sv h t' B IH HC E|t hs c level lv h t' B IH HC E|t hs level lv e h t' B IH HE E|t hs c ix h t' B IH HC E|t hs c lv ix h t' B IH HC E
      |t hs c lv h t' B IH HC E|t hs c lv nz h t' B IH HC E|t hs level lv data h t' B IH HD E|t hs bits base level h t' B IH HC E|t hs bits base h t' B IH HC E|t hs level max h t' B IH E|t hs level c h t' B IH E
      |t hs lv e B IH HE|t hs c t' B IH HC E|t hs dir ch cs mult sels t' B IH HC E|t hs lv ch cs t' B IH HC E].
    1: { split; [apply new_ok|]. split; [reflexivity|intros h []]. }
    all: destruct IH as (OK & EI & HH).
    (* methods that return a column *)
    all: try (assert (R : result L t h t' /\ t_id L t' = t_id L t);
      [|destruct R as ((R1 & R2 & R3) & R4); split; [exact R1|]; split; [congruence|]; intros g [<-|Hg]; [exact R2|apply R3; auto]]).
    (* the others *)
    all: try match goal with |- table_ok L ?x /\ _ => assert (R : (table_ok L x /\ extends L t x) /\ t_id L x = t_id L t);
      [|destruct R as ((R1 & R3) & R4); split; [exact R1|]; split; [congruence|]; intros g Hg; apply R3; auto] end.
    - unfold require_power_of_two_size in E. destruct (t_spec L t) eqn:ES; try discriminate. apply ok_inj in E. subst t'. split; [now apply (spec_ok L t PowerOfTwo)|reflexivity].
    - unfold require_fixed_size in E. destruct (t_spec L t) eqn:ES; try discriminate. apply ok_inj in E. subst t'. split; [now apply (spec_ok L t (Fixed n))|reflexivity].
    - split; [now apply (new_committed L t level lv)|]. unfold add_committed, new_column in E. injection E as <- <-. reflexivity.
    - split; [apply (new_shifted L t c b o sv); auto|]. unfold add_shifted in E. destruct (_ || _); [discriminate|]. apply ok_inj in E. unfold new_column in E. injection E as <- <-. reflexivity.
    - split; [apply (new_packed L t c level lv); auto|]. unfold add_packed in E. destruct (negb _); [discriminate|]. apply ok_inj in E. unfold new_column in E. injection E as <- <-. reflexivity.
    - destruct (new_computed L t level lv e OK (expr_ok t hs lv e HH HE)) as (h' & t1 & E1 & R & _). rewrite E in E1. apply ok_inj in E1. apply pair_equal_spec in E1 as [<- <-]. split; [exact R|].
      destruct R as (_ & (H1 & _) & _).
      all: unfold add_computed in E; destruct (of_opt (degree _)) as [d| |]; cbn [rbind] in E; try discriminate; destruct (d <=? 1).
      all: try (destruct (of_opt (vars_usage _)); cbn [rbind] in E; try discriminate; destruct (of_opt (part_of L t lv)); cbn [rbind] in E; try discriminate;
        destruct (of_opt (omap _ _)); cbn [rbind] in E; try discriminate; destruct (remap_vars _ _); try discriminate; apply ok_inj in E; unfold new_column in E; injection E as <- <-; reflexivity).
      all: destruct (add_committed L t level lv) as [h2 t2] eqn:EA; destruct (ex_op _ _ _ _); cbn [rbind] in E; try discriminate; apply ok_inj in E; apply pair_equal_spec in E as [<- <-];
        unfold add_committed, new_column in EA; injection EA as <- <-; reflexivity.
    - split; [apply (new_selected L t c ix); auto|]. unfold add_selected in E. destruct (negb _); [discriminate|]. apply ok_inj in E. unfold new_column in E. injection E as <- <-. reflexivity.
    - split; [apply (new_block L t c lv ix); auto|]. unfold add_selected_block in E. destruct (negb _); [discriminate|]. apply ok_inj in E. unfold new_column in E. injection E as <- <-. reflexivity.
    - split; [apply (new_upcast L t c lv); auto|]. unfold add_zero_pad_upcast in E. destruct (negb _); [discriminate|]. apply ok_inj in E. unfold new_column in E. injection E as <- <-. reflexivity.
    - split; [apply (new_pad L t c lv nz); auto|]. unfold add_zero_pad in E. destruct (negb _); [discriminate|]. apply ok_inj in E. unfold new_column in E. injection E as <- <-. reflexivity.
    - split; [now apply (new_constant L t level lv data)|]. unfold add_constant, new_column in E. injection E as <- <-. reflexivity.
    - split; [apply (new_static L t bits base level); auto; intros b Hb; destruct (HC b Hb); auto|]. unfold add_static_exp in E. destruct (_ <? _); [discriminate|]. destruct (negb _); [discriminate|]. apply ok_inj in E. unfold new_column in E. injection E as <- <-. reflexivity.
    - split; [apply (new_dynamic L t bits base); auto; [intros b Hb; destruct (HC b (or_intror Hb)); auto|apply HH, HC; now left|apply HC; now left]|].
      unfold add_dynamic_exp in E. destruct (_ <? _); [discriminate|]. destruct (negb _); [discriminate|]. apply ok_inj in E. unfold new_column in E. injection E as <- <-. reflexivity.
    - split; [now apply (new_structured L t level max)|]. unfold add_structured in E. destruct (t_spec L t); try discriminate. apply ok_inj in E. unfold new_column in E. injection E as <- <-. reflexivity.
    - split; [now apply (new_fixed L t level c)|]. unfold add_fixed in E. destruct (t_spec L t); try discriminate. destruct (_ =? _); [|discriminate]. apply ok_inj in E. unfold new_column in E. injection E as <- <-. reflexivity.
    - split; [apply (zero_ok L t lv e OK); now apply (expr_ok t hs)|reflexivity].
    - split; [now apply (nonzero_ok L t c)|]. unfold assert_nonzero in E. destruct (negb _); [discriminate|]. destruct (nth_error _ _); [|discriminate]. apply ok_inj in E. now subst t'.
    - split; [apply (flush_opts_ok L t dir ch cs mult sels); auto; intros c Hc; destruct (HC c Hc); auto|]. unfold flush_with_opts in E. destruct (negb _); [discriminate|]. apply ok_inj in E. now subst t'.
    - split; [apply (read_ok L t lv ch cs); auto; intros c Hc; destruct (HC c Hc); auto|]. unfold read in E. destruct (negb _); [discriminate|]. apply ok_inj in E. now subst t'.
  Qed.
  (** Columns of another table are refused where the code compares tables: in the columns and selectors of flushes, in reads,
      in assertions that a column is not zero and in the bits of an exponent. *)
  Theorem foreign_columns t (cs sels : list hcol) c : In c (cs ++ sels) -> fst (h_id c) <> t_id L t ->
    (forall dir ch mult, flush_with_opts L t dir ch cs mult sels = Panic) /\
    (In c cs -> (forall lv ch, read L t lv ch cs = Panic) /\ (forall base level, add_static_exp L t cs base level = Panic) /\ (forall base, add_dynamic_exp L t cs base = Panic)) /\
    assert_nonzero L t c = Panic.
  Proof.
    intros HI NE. assert (NO : forall l, In c l -> forallb (fun b => fst (h_id b) =? t_id L t) l = false).
    { intros l Hl. apply not_true_iff_false. rewrite forallb_forall. intros H. apply NE. apply Nat.eqb_eq. exact (H c Hl). }
    split; [|split].
    - intros. unfold flush_with_opts, own_columns. apply in_app_or in HI as [HI|HI]; rewrite (NO _ HI), ?andb_false_r; reflexivity.
    - intros HC. split; [|split]; intros.
      + unfold read, own_columns. now rewrite (NO _ HC).
      + unfold add_static_exp. rewrite (NO _ HC). now destruct (_ <? _).
      + unfold add_dynamic_exp. rewrite (NO _ HC). now destruct (_ <? _).
    - unfold assert_nonzero. apply Nat.eqb_neq in NE. now rewrite NE.
  Qed.
  (** and with columns of the table itself a flush and a read are recorded as given *)
  Theorem own_columns_flushed t (cs sels : list hcol) : (forall c, In c (cs ++ sels) -> fst (h_id c) = t_id L t) ->
    (forall dir ch mult, exists t', flush_with_opts L t dir ch cs mult sels = Ok t' /\
      exists p, part_of L t' 0 = Some p /\ p_flushes L p = p_flushes L (part_or_new L t 0) ++ [mkTf (map h_id cs) ch dir mult (map h_id sels)]) /\
    (forall lv ch, exists t', read L t lv ch cs = Ok t' /\
      exists p, part_of L t' lv = Some p /\ p_flushes L p = p_flushes L (part_or_new L t lv) ++ [mkTf (map h_id cs) ch Pull 1 []]).
  Proof.
    intros H. assert (O : forall l, incl l (cs ++ sels) -> own_columns L t l = true).
    { intros l Hl. unfold own_columns. rewrite forallb_forall. intros c Hc. apply Nat.eqb_eq, H, Hl, Hc. }
    split; intros.
    - unfold flush_with_opts. rewrite !O by (intros x Hx; apply in_or_app; auto). cbn [andb negb]. eexists. split; [reflexivity|]. unfold add_flush. rewrite part_with, Nat.eqb_refl. eexists. split; reflexivity.
    - unfold read. rewrite O by (intros x Hx; apply in_or_app; auto). cbn [negb]. eexists. split; [reflexivity|]. unfold add_flush. rewrite part_with, Nat.eqb_refl. eexists. split; reflexivity.
  Qed.
End Builder.

(** * The meaning of the methods *)
Section Meaning.
  Variable L : nat.
  Notation F := (TF L).
  Add Ring FringM : (f_ring F).

  (** The column [h] of [t'] says [P w r j] about the cells [w], row [r] and position [j]. *)
  Definition says (t' : tbl L) (h : hcol) (lv : nat) (P : cells L -> nat -> nat -> Prop) : Prop :=
    exists i, nth_error (t_cols L t') (snd (h_id h)) = Some i /\ ci_id L i = h_id h /\ ci_lv L i = lv /\ h_lv h = lv /\
      forall ts n (w : cells L) r j, nth_error ts (t_id L t') = Some t' -> j < 2 ^ lv -> (cell L ts n w i r j <-> P w r j).

  Lemma new_says t level lv d h t' P : table_ok L t -> new_column L t level lv d = (h, t') ->
    (forall ts n w r j i, nth_error ts (t_id L t') = Some t' -> j < 2 ^ lv -> ci_def L i = d -> ci_id L i = h_id h -> (cell L ts n w i r j <-> P w r j)) -> says t' h lv P.
  Proof.
    intros OK E H. unfold new_column in E. injection E as <- <-. cbn [t_id with_part] in *.
    exists (mkInfo L (t_id L t, length (t_cols L t)) d level lv false). split; [|split; [reflexivity|split; [reflexivity|split; [reflexivity|]]]].
    - cbn [h_id snd t_cols with_part]. rewrite nth_error_app2, Nat.sub_diag by lia. reflexivity.
    - intros ts n w r j Ht Hj. apply H; auto.
  Qed.

  Theorem columns_mean t c : table_ok L t -> handle L t c ->
    (forall ix h t', add_selected L t c ix = Ok (h, t') -> says t' h 0 (fun w r _ => w (h_id h) r 0 = w (h_id c) r ix)) /\
    (forall lv ix h t', ix < 2 ^ (h_lv c - lv) -> add_selected_block L t c lv ix = Ok (h, t') -> says t' h lv (fun w r j => w (h_id h) r j = w (h_id c) r (2 ^ lv * ix + j))) /\
    (forall lv nz h t', add_zero_pad L t c lv nz = Ok (h, t') ->
       says t' h lv (fun w r j => w (h_id h) r j = if j / 2 ^ h_lv c =? nz then w (h_id c) r (j mod 2 ^ h_lv c) else f0)) /\
    (forall lv h t', add_zero_pad_upcast L t c lv = Ok (h, t') ->
       says t' h lv (fun w r j => w (h_id h) r j = if j <? 2 ^ lv - 2 ^ h_lv c then f0 else w (h_id c) r (j - (2 ^ lv - 2 ^ h_lv c)))) /\
    (forall b o sv h t', add_shifted L t c b o sv = Ok (h, t') -> says t' h (h_lv c) (fun w r j => w (h_id h) r j = shifted_value sv b o (w (h_id c) r) j)) /\
    (forall level lv h t', add_packed L t c level lv = Ok (h, t') ->
       says t' h lv (fun w r j => w (h_id h) r j = sumn (2 ^ (level - h_level c)) (fun e => fmul (basis_product L (h_level c) e) (w (h_id c) r (j * 2 ^ (level - h_level c) + e))))) /\
    (forall level lv data h t', add_constant L t level lv data = (h, t') -> says t' h lv (fun w r j => w (h_id h) r j = nth j data f0)) /\
    (forall level max h t', add_structured L t level max = Ok (h, t') -> says t' h 0 (fun w r _ => w (h_id h) r 0 = dec L (N.of_nat r))).
  Proof.
    intros OK HC. pose proof HC as (HT & (ic & EC & LC & VC) & _).
    assert (Z : forall j, j < 2 ^ 0 -> j = 0) by (intros j Hj; cbn in Hj; lia).
    split; [|split; [|split; [|split; [|split; [|split; [|split]]]]]].
    - intros ix h t' E. unfold add_selected in E. destruct (negb _); [discriminate|]. apply ok_inj in E. eapply new_says; [exact OK|exact E|]. intros ts n w r j i Ht Hj ED EI. unfold cell. cbv zeta. rewrite ED, EI, (Z j Hj). tauto.
    - intros lv ix h t' Hix E. unfold add_selected_block in E. destruct (negb _); [discriminate|]. apply ok_inj in E. eapply new_says; [exact OK|exact E|]. intros ts n w r j i Ht Hj ED EI. unfold cell. cbv zeta. rewrite ED, EI, (Nat.mod_small ix) by exact Hix.
      rewrite (Nat.add_comm j). tauto.
    - intros lv nz h t' E. unfold add_zero_pad in E. destruct (negb _); [discriminate|]. apply ok_inj in E. eapply new_says; [exact OK|exact E|]. intros ts n w r j i Ht Hj ED EI. unfold cell. cbv zeta. rewrite ED, EI. tauto.
    - intros lv h t' E. unfold add_zero_pad_upcast in E. destruct (Nat.ltb_spec (h_lv c) lv) as [Lt|]; [|discriminate]. cbn [negb] in E. apply ok_inj in E. eapply new_says; [exact OK|exact E|]. intros ts n w r j i Ht Hj ED EI. unfold cell. cbv zeta. rewrite ED, EI.
      set (s := h_lv c) in *. pose proof (Nat.pow_nonzero 2 s ltac:(lia)) as P. pose proof (Nat.pow_nonzero 2 (lv - s) ltac:(lia)) as P'. assert (EL : 2 ^ lv = 2 ^ s * 2 ^ (lv - s)) by (rewrite <- Nat.pow_add_r; f_equal; lia).
      pose proof (Nat.div_mod j _ P) as DM. pose proof (Nat.mod_upper_bound j _ P) as MB. assert (HB : 2 ^ lv - 2 ^ s = 2 ^ s * (2 ^ (lv - s) - 1)) by nia. rewrite HB.
      destruct (Nat.eqb_spec (j / 2 ^ s) (2 ^ (lv - s) - 1)) as [E1|N1].
      + rewrite (proj2 (Nat.ltb_ge _ _)) by nia. replace (j - 2 ^ s * (2 ^ (lv - s) - 1)) with (j mod 2 ^ s) by (rewrite <- E1; lia). tauto.
      + assert (j / 2 ^ s < 2 ^ (lv - s)) by (apply Nat.div_lt_upper_bound; lia). rewrite (proj2 (Nat.ltb_lt _ _)) by nia. tauto.
    - intros b o sv h t' E. unfold add_shifted in E. destruct (_ || _); [discriminate|]. apply ok_inj in E. eapply new_says; [exact OK|exact E|]. intros ts n w r j i Ht Hj ED EI. unfold cell. cbv zeta. rewrite ED, EI. tauto.
    - intros level lv h t' E. unfold add_packed in E. destruct (negb _); [discriminate|]. apply ok_inj in E. eapply new_says; [exact OK|exact E|]. intros ts n w r j i Ht Hj ED EI. unfold cell. cbv zeta. rewrite ED, EI.
      assert (EL : level_of L ts (h_id c) = h_level c); [|rewrite EL; tauto]. unfold level_of, info_of. unfold new_column in E. injection E as <- <-. cbn [t_id with_part] in Ht. rewrite HT, Ht. cbn [t_cols with_part].
      rewrite nth_error_app1 by (apply nth_error_Some; congruence). rewrite EC. exact VC.
    - intros level lv data h t' E. unfold add_constant in E. eapply new_says; [exact OK|exact E|]. intros ts n w r j i Ht Hj ED EI. unfold cell. cbv zeta. rewrite ED, EI. tauto.
    - intros level max h t' E. unfold add_structured in E. destruct (t_spec L t); try discriminate. apply ok_inj in E. eapply new_says; [exact OK|exact E|]. intros ts n w r j i Ht Hj ED EI. unfold cell. cbv zeta. rewrite ED, EI, (Z j Hj). tauto.
  Qed.
End Meaning.

(* -------------------------------------------------------------------- *)
(** * Specification of the compiled system *)
Section Spec.
  Variable L D : nat.
  Notation F := (TF L).

  (** the oracle of a column *)
  Definition oracle_of (k : compiled L) (c : cid) : nat := match lookup (c_lookup L k) c with Ok id => id | _ => 0 end.
  (** the columns that the prover commits to *)
  Definition prover_column (d : cdef L) : Prop := match d with CdCommitted _ _ | CdStaticExp _ _ _ _ | CdDynamicExp _ _ _ _ => True | _ => False end.

  (** What the soundness of the verifier asks of a constraint system beyond well-formedness. *)
  Definition verifiable (ts : list (tbl L)) : Prop :=
    (forall t p z, In (t, p) (parts_of L ts) -> In z (p_zeros L p) -> composable D z) /\
    (forall t p f, In (t, p) (parts_of L ts) -> In f (p_flushes L p) -> length (tf_sels f) + 2 <= D) /\
    (forall i, In i (all_cols L ts) -> match ci_def L i with CdStaticExp _ bits _ _ => bits <> [] /\ length bits <= 64 | CdDynamicExp _ bits _ _ => bits <> [] | _ => True end).
  Definition size_of (sizes : list nat) (t : tbl L) : nat := nth (t_id L t) sizes 0.
  (** The selectors of the flushes are zero or one, also in the rows that pad the tables. *)
  Definition selectors_boolean (ts : list (tbl L)) (sizes : list nat) (w : cells L) : Prop :=
    forall t p f k r j, In (t, p) (parts_of L ts) -> In f (p_flushes L p) -> In k (tf_sels f) -> size_of sizes t <> 0 ->
      r < 2 ^ log2_ceil (size_of sizes t) -> j < 2 ^ p_lv L p -> w k r j = f0 \/ w k r j = f1.

  (** What the rows of the tables, without padding, send over the channels. *)
  Definition flush_sends (sizes : list nat) (w : cells L) (t : tbl L) (p : part L) (f : tflush) : list (event F) :=
    map (fun rj => mkEvent F (tf_channel f) (tf_dir f) (tf_mult f) (map (fun k => w k (fst rj) (snd rj)) (tf_cols f)))
      (filter (fun rj => forallb (fun k => negb (feqb (w k (fst rj) (snd rj)) f0)) (tf_sels f)) (list_prod (seq 0 (size_of sizes t)) (seq 0 (2 ^ p_lv L p)))).
  Definition table_events (ts : list (tbl L)) (sizes : list nat) (bs : list (boundary F)) (w : cells L) : list (event F) :=
    map (boundary_event F) bs ++ flat_map (fun tp => flat_map (flush_sends sizes w (fst tp) (snd tp)) (p_flushes L (snd tp))) (parts_of L ts).

  (** The cells [w] violate an assertion of the tables, with the error of the reductions. *)
  Inductive broken_tables (bc : nat -> option F) (domain_bits : nat) (ts : list (tbl L)) (sizes : list nat) (bs : list (boundary F)) (w : cells L)
      (os : oset L) (sys : system L) : nat -> Prop :=
  | broken_zero t p z r j v :
      (forall e b, sub_with_dim bc e = Ok b -> lin_indep b) -> (forall e, e <= domain_bits -> exists b, sub_with_dim bc e = Ok b) ->
      Nat.max D (2 ^ domain_bits) <= 2 ^ usize_bits ->
      In (t, p) (parts_of L ts) -> In z (p_zeros L p) -> size_of sizes t <> 0 -> r < 2 ^ log2_ceil (size_of sizes t) -> j < 2 ^ p_lv L p ->
      ArithModel.evaluate z (map (fun k => w k r j) (p_cols L p)) = Some v -> v <> f0 ->
      broken_tables bc domain_bits ts sizes bs w os sys (zero_error L D (map (sized L sizes) (live_tables L sys sizes)) domain_bits)
  | broken_balance t p f x wd :
      let es := table_events ts sizes bs w in
      In (t, p) (parts_of L ts) -> In f (p_flushes L p) -> size_of sizes t <> 0 ->
      (forall e, In e es -> ev_channel F e = tf_channel f -> length (ev_values F e) = wd) ->
      sent F Push (tf_channel f) x es <> sent F Pull (tf_channel f) x es ->
      broken_tables bc domain_bits ts sizes bs w os sys (length (on_channel F (tf_channel f) es) * (wd - 1) +
        (Nat.max (weight F Push (tf_channel f) es) (weight F Pull (tf_channel f) es) + gpa_error L os (sys_flushes L sys) (live_non_zero L os sys) sizes))
  | broken_nonzero c i r j :
      info_of L ts c = Some i -> ci_nonzero L i = true -> rows_of sizes c <> 0 -> r < 2 ^ log2_ceil (rows_of sizes c) -> j < 2 ^ ci_lv L i -> w c r j = f0 ->
      broken_tables bc domain_bits ts sizes bs w os sys (gpa_error L os (sys_flushes L sys) (live_non_zero L os sys) sizes).
End Spec.

(* -------------------------------------------------------------------- *)
Section Compile.
  Variable L D : nat.
  Notation F := (TF L).
  Notation all_cols := (CompileSpec.all_cols L).

  Lemma oracle_agrees (k : compiled L) : agrees (c_lookup L k) (oracle_of L k).
  Proof. intros c id E. unfold oracle_of. now rewrite E. Qed.

  (** Compilation of well-formed tables succeeds.  Each column has its own oracle, with the table and number of values per row
      of the column; the oracles of committed columns, and only they, are committed and have the level of the column.  The
      specifications of the tables, the flushes, the exponentiations, the columns that must not vanish and the constraints are
      those of the tables. *)
  Theorem compile_correct ts channels : tables_ok L ts -> all_compilable L ts -> exists k, compile L ts channels = Ok k /\ let lk := oracle_of L k in
    (forall c i, info_of L ts c = Some i -> lookup (c_lookup L k) c = Ok (lk c) /\ exists o, nth_error (c_oracles L k) (lk c) = Some o /\
       so_table o = fst c /\ so_lv o = ci_lv L i /\ (so_variant o = SymCommitted <-> prover_column L (ci_def L i)) /\ (prover_column L (ci_def L i) -> so_level o = ci_level L i)) /\
    (forall c c' i i', info_of L ts c = Some i -> info_of L ts c' = Some i' -> lk c = lk c' -> c = c') /\
    sys_specs L (c_system L k) = map (t_spec L) ts /\ sys_channel_count L (c_system L k) = channels /\
    sys_flushes L (c_system L k) = flushes_at L lk ts /\ sys_exponents L (c_system L k) = exponents_at L lk ts /\
    sys_non_zero L (c_system L k) = map (fun i => lk (ci_id L i)) (filter (ci_nonzero L) (all_cols ts)) /\
    constraints_at L lk ts (sys_tables L (c_system L k)).
  Proof.
    intros OK CP. destruct (compile_ok L ts channels OK CP) as (k & E & IV & SP & CC & H). destruct (H _ (oracle_agrees k)) as (H1 & H2 & H3). exists k. split; [exact E|]. cbv zeta.
    split; [|split; [|split; [exact SP|split; [exact CC|split; [exact H1|split; [exact H2|split; [|exact H3]]]]]]].
    - intros c i EI. destruct (in_info L ts c i OK EI) as [Hi <-]. destruct (col_oracle L ts _ _ _ _ IV (oracle_agrees k) i Hi) as [EL (level & v & EO & VF)]. split; [exact EL|].
      eexists. split; [exact EO|]. cbn [so_table so_lv so_variant so_level]. split; [reflexivity|]. split; [reflexivity|].
      assert (CO : column_ok L (match nth_error ts (fst (ci_id L i)) with Some t => t | None => table_new L 0 end) (snd (ci_id L i)) i).
      { destruct (col_table L ts OK i Hi) as (t & Et & _ & _ & _ & CO). now rewrite Et. }
      unfold variant_for in VF. unfold column_ok in CO. destruct (ci_def L i) eqn:ED; cbn [prover_column].
      + destruct VF as [-> ->]. split; [tauto|auto].
      + destruct VF as (k0 & cf & inner & _ & -> & _). split; [split; [discriminate|tauto]|tauto].
      + destruct VF as (j & o & _ & _ & ->). split; [split; [discriminate|tauto]|tauto].
      + destruct VF as (j & o & _ & _ & ->). split; [split; [discriminate|tauto]|tauto].
      + destruct VF as (j & o & _ & _ & ->). split; [split; [discriminate|tauto]|tauto].
      + destruct VF as (j & o & _ & _ & ->). split; [split; [discriminate|tauto]|tauto].
      + destruct VF as (j & o & _ & _ & ->). split; [split; [discriminate|tauto]|tauto].
      + destruct VF as (j & p & _ & _ & _ & -> & _). split; [split; [discriminate|tauto]|tauto].
      + destruct VF as (e & _ & ->). split; [split; [discriminate|tauto]|tauto].
      + subst v. split; [split; [discriminate|tauto]|tauto].
      + destruct VF as [-> ->]. split; [tauto|intros _; apply CO].
      + destruct VF as [-> ->]. split; [tauto|intros _; apply CO].
    - intros c c' i i' E1 E2 EQ. destruct (in_info L ts c i OK E1) as [Hi <-]. destruct (in_info L ts c' i' OK E2) as [Hi' <-].
      destruct (col_oracle L ts _ _ _ _ IV (oracle_agrees k) i Hi) as [L1 _]. destruct (col_oracle L ts _ _ _ _ IV (oracle_agrees k) i' Hi') as [L2 _]. rewrite EQ in L1. exact (inv_inj _ _ _ _ _ IV _ _ _ L1 L2).
    - pose proof (inv_nz _ _ _ _ _ IV) as NZ. clear -NZ. induction NZ as [|i id l l' E NZ IH]; [reflexivity|]. cbn [map]. rewrite <- IH. f_equal. unfold oracle_of. now rewrite E.
  Qed.

  (** The oracles say exactly what the definitions of the columns say: for table sizes that the verifier accepts, the values of the
      oracles give cells in which every derived column is what it is defined to be, and all such cells come from values of the oracles. *)
  Theorem compile_cells ts channels k sizes : tables_ok L ts -> all_compilable L ts -> compile L ts channels = Ok k -> sizes_fit L ts sizes ->
    exists os, instantiate L (c_oracles L k) sizes = Ok os /\
      (forall V, consistent os V -> cells_hold L ts sizes (view L (oracle_of L k) ts V)) /\
      (forall w, cells_hold L ts sizes w -> exists V, consistent os V /\
         forall c i r j, info_of L ts c = Some i -> j < 2 ^ ci_lv L i -> view L (oracle_of L k) ts V c r j = w c r j).
  Proof.
    intros OK CP EK SF. destruct (compile_ok L ts channels OK CP) as (k' & E & IV & _). rewrite EK in E. apply ok_inj in E. subst k'.
    destruct (instantiate_correct L sizes _ (encode_shapes L ts _ _ _ _ sizes OK CP IV (oracle_agrees k) SF)) as (os & EI & _ & _ & _ & CI). exists os. split; [exact EI|]. split.
    - intros V C. apply (encode_sound L ts _ _ _ _ sizes OK CP IV (oracle_agrees k) SF). now apply CI.
    - intros w CH. exists (encoded L ts (oracle_of L k) w). split.
      + apply CI. now apply (encode_complete L ts _ _ _ _ sizes OK CP IV (oracle_agrees k) SF).
      + intros c i r j EC Hj. destruct (in_info L ts c i OK EC) as [Hi <-]. now apply (encoded_view L ts _ _ _ _ OK IV (oracle_agrees k)).
  Qed.

  (** * Soundness *)
  Lemma map_add b m : forall s, map (fun y => b + y) (seq s m) = seq (b + s) m.
  Proof. induction m as [|m IH]; intros s; [reflexivity|]. cbn [seq map]. now rewrite IH, Nat.add_succ_r. Qed.
  Lemma grid n m : forall a, map (fun rj => fst rj * m + snd rj) (list_prod (seq a n) (seq 0 m)) = seq (a * m) (n * m).
  Proof.
    induction n as [|n IH]; intros a; [reflexivity|]. cbn [seq list_prod Nat.mul]. rewrite map_app, map_map, IH, seq_app. f_equal; [|f_equal; lia]. cbn [fst snd]. rewrite map_add. f_equal. lia.
  Qed.
  Lemma filter_map {A B} (f : A -> B) (P : B -> bool) (l : list A) : filter P (map f l) = map f (filter (fun x => P (f x)) l).
  Proof. induction l as [|a l IH]; [reflexivity|]. cbn [map filter]. destruct (P (f a)); cbn [map]; now rewrite IH. Qed.

  Section Sound.
    Variable ts : list (tbl L).
    Variable channels : nat.
    Variable k : compiled L.
    Variable sizes : list nat.
    Variable os : oset L.
    Hypothesis OK : tables_ok L ts.
    Hypothesis CP : all_compilable L ts.
    Hypothesis EK : compile L ts channels = Ok k.
    Hypothesis SF : sizes_fit L ts sizes.
    Hypothesis EI : instantiate L (c_oracles L k) sizes = Ok os.
    Notation lk := (oracle_of L k).
    Notation sys := (c_system L k).
    Notation parts_of := (CompileSpec.parts_of L).
    Notation view := (CompileSpec.view L lk ts).

    Lemma compiled_inv : inv L (c_oracles L k) (c_lookup L k) (sys_non_zero L sys) (all_cols ts).
    Proof. destruct (compile_ok L ts channels OK CP) as (k' & E & IV & _). rewrite EK in E. apply ok_inj in E. now subst k'. Qed.
    Lemma compiled_system : sys_flushes L sys = flushes_at L lk ts /\ sys_exponents L sys = exponents_at L lk ts /\
      sys_non_zero L sys = map (fun i => lk (ci_id L i)) (filter (ci_nonzero L) (all_cols ts)) /\ constraints_at L lk ts (sys_tables L sys).
    Proof. destruct (compile_correct ts channels OK CP) as (k' & E & H). rewrite EK in E. apply ok_inj in E. subst k'. cbv zeta in H. tauto. Qed.
    Lemma oracle_instance : instance_of L sizes (c_oracles L k) os.
    Proof.
      destruct (instantiated L sizes _ (encode_shapes L ts _ _ _ _ sizes OK CP compiled_inv (oracle_agrees k) SF)) as (os' & E & IN). rewrite EI in E. apply ok_inj in E. now subst os'.
    Qed.

    Lemma col_present i : In i (all_cols ts) -> (rows_of sizes (ci_id L i) = 0 -> nth_error os (lk (ci_id L i)) = Some None) /\
      (rows_of sizes (ci_id L i) <> 0 -> exists o, present L os (lk (ci_id L i)) o /\ o_nvars o = log2_ceil (rows_of sizes (ci_id L i)) + ci_lv L i).
    Proof.
      intros Hi. destruct (col_oracle L ts _ _ _ _ compiled_inv (oracle_agrees k) i Hi) as [_ (level & v & EO & _)]. destruct oracle_instance as (_ & _ & H). destruct (H _ _ EO) as [H1 H2].
      destruct (col_vars L ts _ _ _ _ sizes OK compiled_inv (oracle_agrees k) SF i _ Hi EO) as [ER EV]. rewrite ER in *. split; [exact H1|]. intros R. destruct (H2 R) as (w & E & _). eexists. split; [exact E|]. cbn [o_nvars]. now apply EV.
    Qed.

    Lemma table_part t p : In (t, p) (parts_of ts) -> nth_error ts (t_id L t) = Some t /\ part_ok L t (p_lv L p) p.
    Proof.
      intros H. unfold CompileSpec.parts_of in H. apply in_concat in H as (l & Hl & H). apply in_map_iff in Hl as (t' & <- & Ht). apply in_map_iff in H as (p' & E & Hp). injection E as -> ->.
      apply In_nth_error in Ht as [n Ht]. destruct (OK _ _ Ht) as [TI TO]. rewrite TI. split; [exact Ht|]. destruct (part_in L t p Hp) as [lv E]. pose proof (proj2 TO lv p E) as PO. assert (EL : p_lv L p = lv) by apply PO. now rewrite EL.
    Qed.
    Lemma part_col t p n lv c : In (t, p) (parts_of ts) -> column_of L t n lv c -> exists i, In i (all_cols ts) /\ ci_id L i = c /\ ci_lv L i = lv /\ rows_of sizes c = size_of L sizes t.
    Proof.
      intros H (H1 & H2 & i & H3 & H4). destruct (table_part t p H) as [Et _]. assert (E : info_of L ts c = Some i) by (unfold info_of; now rewrite H1, Et). destruct (in_info L ts c i OK E) as [Hi EC].
      exists i. repeat split; auto. unfold rows_of, size_of. now rewrite H1.
    Qed.
    Lemma view_at t p n c V r j : In (t, p) (parts_of ts) -> column_of L t n (p_lv L p) c -> view V c r j = V (lk c) (r * 2 ^ p_lv L p + j).
    Proof. intros H C. destruct (part_col t p n _ c H C) as (i & Hi & <- & EL & _). unfold CompileSpec.view. now rewrite (lv_of_col L ts OK i Hi), EL. Qed.
    Lemma part_present t p n lv c : In (t, p) (parts_of ts) -> column_of L t n lv c -> size_of L sizes t <> 0 ->
      exists o, present L os (lk c) o /\ o_nvars o = log2_ceil (size_of L sizes t) + lv.
    Proof. intros H C R. destruct (part_col t p n lv c H C) as (i & Hi & <- & <- & ER). rewrite <- ER in R. destruct (proj2 (col_present i Hi) R) as (o & P & N). exists o. split; [exact P|]. rewrite N. now rewrite ER. Qed.

    Lemma flush_of f : In f (sys_flushes L sys) -> exists t p tf, In (t, p) (parts_of ts) /\ In tf (p_flushes L p) /\ f = flush_at L lk (t_id L t) (p_lv L p) tf.
    Proof.
      destruct compiled_system as (-> & _). unfold flushes_at. intros H. apply in_concat in H as (l & Hl & H). apply in_map_iff in Hl as ([t p] & <- & Ht). apply in_map_iff in H as (tf & <- & Hf). cbn [fst snd] in *. eauto 6.
    Qed.
    Lemma constraint_of tc : In tc (sys_tables L sys) -> exists t p, In (t, p) (parts_of ts) /\ p_zeros L p <> [] /\ tables_at L lk t p [tc].
    Proof.
      destruct compiled_system as (_ & _ & _ & tss & -> & FA). intros H. apply in_concat in H as (l & Hl & H). revert Hl. induction FA as [|[t p] x l0 l1 TA FA IH]; [intros []|]. intros [->|Hl].
      - exists t, p. cbn [fst snd] in TA. unfold tables_at in *. destruct (p_zeros L p) as [|z zs]; [subst; destruct H|]. destruct TA as (tc' & -> & TA). destruct H as [->|[]]. split; [now left|]. split; [discriminate|]. eauto.
      - destruct (IH Hl) as (t' & p' & H1 & H2). exists t', p'. split; [now right|exact H2].
    Qed.
    Lemma constraint_for t p : In (t, p) (parts_of ts) -> p_zeros L p <> [] -> exists tc, In tc (sys_tables L sys) /\ tables_at L lk t p [tc].
    Proof.
      destruct compiled_system as (_ & _ & _ & tss & -> & FA). intros H NE. induction FA as [|[t' p'] x l0 l1 TA FA IH]; [destruct H|]. destruct H as [E|H].
      - injection E as -> ->. cbn [fst snd] in TA. unfold tables_at in *. destruct (p_zeros L p) as [|z zs]; [contradiction|]. destruct TA as (tc' & -> & TA). exists tc'. split; [apply in_or_app; left; now left|eauto].
      - destruct (IH H) as (tc & H1 & H2). exists tc. split; [|exact H2]. cbn [concat]. apply in_or_app. now right.
    Qed.
    Lemma exp_of e : In e (sys_exponents L sys) -> exists t i, nth_error ts (t_id L t) = Some t /\ In i (all_cols ts) /\ nth_error (t_cols L t) (snd (ci_id L i)) = Some i /\ fst (ci_id L i) = t_id L t /\ In e (exps_at L lk i).
    Proof.
      destruct compiled_system as (_ & -> & _). unfold exponents_at. intros H. apply in_concat in H as (l & Hl & H). apply in_map_iff in Hl as ([t p] & <- & Ht). cbn [fst snd] in H. unfold exps_in in H.
      apply in_concat in H as (l & Hl & H). apply in_map_iff in Hl as (c & <- & Hc). destruct (table_part t p Ht) as [Et PO]. destruct PO as (_ & PC & _). destruct (part_col t p _ _ c Ht (PC c Hc)) as (i & Hi & EC & _).
      destruct (col_table L ts OK i Hi) as (t' & Et' & TI & _ & Ei & _). pose proof (PC c Hc) as (FC & _). rewrite <- EC in FC. rewrite FC, Et in Et'. injection Et' as <-. exists t, i. rewrite <- EC in H. rewrite Ei in H. auto.
    Qed.

    Lemma no_composite : composable_set D os.
    Proof.
      intros id o m ids c E EV. exfalso. destruct oracle_instance as (IL & _ & H). assert (LT : id < length (c_oracles L k)) by (rewrite <- IL; apply nth_error_Some; congruence).
      destruct (nth_error_ex (c_oracles L k) id LT) as [so ES]. destruct (H _ _ ES) as [H1 H2]. destruct (Nat.eq_dec (rows L sizes so) 0) as [Z|NZ]; [rewrite (H1 Z) in E; discriminate|].
      destruct (H2 NZ) as (v & E1 & E2). rewrite E1 in E. injection E as <-. cbn [o_variant] in EV. subst v.
      assert (NC : forall ids c, so_variant so <> SymComposite ids c).
      { intros ids' c' EC. destruct (each_oracle L ts _ _ _ _ compiled_inv (oracle_agrees k) id so ES) as (i & Hi & [<-|[EJ (data & l & ED)]]).
        - destruct (col_oracle L ts _ _ _ _ compiled_inv (oracle_agrees k) i Hi) as [_ (level & v & EO & VF)]. rewrite EO in ES. injection ES as <-. cbn [so_variant] in EC. subst v. unfold variant_for in VF.
          destruct (ci_def L i).
          all: try (destruct VF as (j & o & _ & _ & X); discriminate X).
          all: try (destruct VF as [_ X]; discriminate X).
          + destruct VF as (? & ? & ? & _ & X & _). discriminate X.
          + destruct VF as (? & ? & _ & _ & _ & X & _). discriminate X.
          + destruct VF as (? & _ & X). discriminate X.
          + discriminate VF.
        - destruct (original L ts _ _ _ _ OK compiled_inv (oracle_agrees k) i data l id Hi ED EJ) as (p & EO & _). rewrite EO in ES. injection ES as <-. discriminate EC. }
      clear - E2 NC. destruct (so_variant so) as [| p | c' | j | j vs st | j off b sv | j d | off inner | j pad nz s | ids' c']; cbn [instantiate_variant] in E2; try discriminate.
      - destruct (n_vars_of _ _); cbn [rbind] in E2; try discriminate. destruct (_ <? _); discriminate.
      - destruct (match st with Some o => Ok o | None => _ end); cbn [rbind] in E2; try discriminate. destruct (n_vars_of _ _); cbn [rbind] in E2; try discriminate. destruct (_ <? _); discriminate.
      - destruct (n_vars_of _ _); cbn [rbind] in E2; try discriminate. destruct (_ <? _); [discriminate|]. destruct (_ || _); discriminate.
      - destruct (check_n_vars _ _ _); cbn [rbind] in E2; try discriminate.
      - destruct (n_vars_of _ _); cbn [rbind] in E2; try discriminate. destruct (_ <? _); [discriminate|]. destruct (_ <? _); discriminate.
      - now apply (NC ids' c').
    Qed.

    Variable V : values L.
    Hypothesis CO : consistent os V.
    Hypothesis VB : verifiable L D ts.
    Hypothesis SB : selectors_boolean L ts sizes (view V).

    Lemma compiled_ok : VerifyProps.system_ok L D os V sys sizes.
    Proof.
      destruct VB as (VZ & VS & VE). split; [apply oracle_instance|]. split; [exact CO|]. split; [apply no_composite|]. split; [|split].
      - intros f Hf NE. destruct (flush_of f Hf) as (t & p & tf & Ht & Htf & ->). destruct (table_part t p Ht) as [Et (_ & _ & _ & PF)]. specialize (PF tf Htf).
        unfold nonempty in NE. apply Nat.ltb_lt in NE. cbn [flush_at fl_table] in NE. fold (size_of L sizes t) in NE.
        split; [|split].
        + exists (size_of L sizes t). cbn [flush_at fl_table fl_oracles fl_selectors fl_log_values_per_row]. split.
          * unfold size_of in *. destruct (nth_error sizes (t_id L t)) as [s|] eqn:ES; [now rewrite (nth_error_nth _ _ _ ES)|]. apply nth_error_None in ES. rewrite nth_overflow in NE by exact ES. lia.
          * intros id Hid. assert (X : exists c, (In c (tf_cols tf) \/ In c (tf_sels tf)) /\ id = lk c).
            { apply in_app_or in Hid as [Hid|Hid].
              - unfold oracle_ids in Hid. apply in_flat_map in Hid as (o & Ho & Hid). apply in_map_iff in Ho as (c & <- & Hc). destruct Hid as [<-|[]]. eauto.
              - apply in_map_iff in Hid as (c & <- & Hc). eauto. }
            destruct X as (c & Hc & ->). apply (part_present t p _ _ c Ht (PF c Hc)). lia.
        + cbn [flush_at fl_selectors]. rewrite map_length. now apply (VS t p).
        + cbn [flush_at fl_selectors]. intros id x Hid Hx. apply in_map_iff in Hid as (c & <- & Hc). unfold flush_vars in Hx. cbn [flush_at fl_table fl_log_values_per_row] in Hx. fold (size_of L sizes t) in Hx.
          pose proof (Nat.pow_nonzero 2 (p_lv L p) ltac:(lia)) as P. pose proof (Nat.div_mod x _ P) as DM. pose proof (Nat.mod_upper_bound x _ P) as MB.
          pose proof (SB t p tf c (x / 2 ^ p_lv L p) (x mod 2 ^ p_lv L p) Ht Htf Hc ltac:(lia)) as S. rewrite (view_at t p _ c V _ _ Ht (PF c (or_intror Hc))) in S.
          replace (x / 2 ^ p_lv L p * 2 ^ p_lv L p + x mod 2 ^ p_lv L p) with x in S by lia. apply S; [|exact MB]. apply Nat.div_lt_upper_bound; [exact P|]. rewrite Nat.pow_add_r in Hx. lia.
      - intros tc Htc. unfold live_tables in Htc. apply filter_In in Htc as [Htc LV]. destruct (constraint_of tc Htc) as (t & p & Ht & NE & TA). destruct (table_part t p Ht) as [Et (_ & PC & _ & _)].
        unfold tables_at in TA. destruct (p_zeros L p) as [|z0 zs] eqn:EZ; [contradiction|]. destruct TA as (tc' & E & T1 & T2 & T3 & T4). injection E as <-.
        assert (R : size_of L sizes t <> 0). { unfold live, VerifyZero.table_size in LV. apply negb_true_iff, Nat.eqb_neq in LV. rewrite T1 in LV. exact LV. }
        unfold sized_ok, sized. cbn [sz_constraints sz_ids sz_n]. split; [|split].
        + inversion T4. discriminate.
        + intros con Hc. assert (X : exists z, In z (z0 :: zs) /\ same_constraint L (map lk (p_cols L p)) (tc_ids L tc) z con).
          { clear - T4 Hc. induction T4 as [|z c l l' S FA IH]; [destruct Hc|]. destruct Hc as [->|Hc]; [exists z; split; [now left|exact S]|]. destruct (IH Hc) as (z' & H1 & H2). exists z'. split; [now right|exact H2]. }
          destruct X as (z & Hz & (_ & W & NV & _ & (pos & EP) & _)). split; [exact W|]. split; [exact NV|]. intros n kc EC. apply (VZ t p z Ht) with (pos := pos) (n := n) (c := fst con); auto. now rewrite EZ.
        + intros id Hid. apply T3 in Hid. apply in_map_iff in Hid as (c & <- & Hc). destruct (part_present t p _ _ c Ht (PC c Hc) R) as (o & P & N). exists o. split; [exact P|]. rewrite N. unfold table_vars, VerifyZero.table_size. rewrite T1, T2. unfold size_of. lia.
      - intros e He. unfold live_exponents in He. apply filter_In in He as [He HR]. destruct (exp_of e He) as (t & i & Et & Hi & Ei & FI & Hei).
        destruct (col_table L ts OK i Hi) as (t' & Et' & _ & TO & _ & CK). rewrite FI, Et in Et'. injection Et' as <-.
        assert (XR : xp_result e = lk (ci_id L i)). { unfold exps_at in Hei. destruct (ci_def L i); try destruct Hei as [<-|[]]; try destruct Hei; reflexivity. }
        assert (R : rows_of sizes (ci_id L i) <> 0). { intros Z. rewrite XR in HR. unfold has_rows in HR. rewrite (proj1 (col_present i Hi) Z) in HR. discriminate. }
        assert (PR : forall n c, column_of L t n 0 c -> exists o, present L os (lk c) o /\ o_nvars o = log2_ceil (rows_of sizes (ci_id L i))).
        { intros n c C. destruct (col_ref L ts OK i t n 0 c Hi) as (i' & Hi' & <- & EL & EF); [now rewrite FI|exact C|].
          assert (R' : rows_of sizes (ci_id L i') <> 0) by (unfold rows_of in *; now rewrite EF). destruct (proj2 (col_present i' Hi') R') as (o & P & N). exists o. split; [exact P|]. rewrite N, EL, Nat.add_0_r. unfold rows_of. now rewrite EF. }
        specialize (VE i Hi). unfold column_ok in CK. unfold exps_at in Hei. unfold exp_columns, exp_sized.
        destruct (ci_def L i) as [l|ks c|k' ix b|k' s size bits|k' pad s nz'|k' off b sv|k' d|data l|max|c|bits g l|bits g l] eqn:ED; try destruct Hei as [<-|[]]; try destruct Hei; cbn [xp_bits xp_base].
        + destruct VE as [V1 V2]. split; [split; [destruct bits; [contradiction|discriminate]|now rewrite map_length]|]. destruct CK as (_ & _ & _ & CK). exists (log2_ceil (rows_of sizes (ci_id L i))). intros id [Hid|Hid]; [|discriminate].
          apply in_map_iff in Hid as (c & <- & Hc). apply (PR _ _ (CK c Hc)).
        + split; [split; [destruct bits; [contradiction|discriminate]|exact I]|]. destruct CK as (_ & _ & _ & CB & CK). exists (log2_ceil (rows_of sizes (ci_id L i))). intros id [Hid|Hid].
          * apply in_map_iff in Hid as (c & <- & Hc). apply (PR _ _ (CK c Hc)).
          * injection Hid as <-. apply (PR _ _ CB).
    Qed.

    Lemma events_agree bs : events F (wit L os V) sizes (sys_flushes L sys) bs = table_events L ts sizes bs (view V).
    Proof.
      destruct compiled_system as (-> & _). unfold events, table_events. f_equal. unfold flushes_at.
      assert (G : forall l, (forall tp, In tp l -> In tp (parts_of ts)) -> flat_map (flush_events F (wit L os V) sizes) (concat (map (fun tp => map (flush_at L lk (t_id L (fst tp)) (p_lv L (snd tp))) (p_flushes L (snd tp))) l)) =
        flat_map (fun tp => flat_map (flush_sends L sizes (view V) (fst tp) (snd tp)) (p_flushes L (snd tp))) l).
      { induction l as [|[t p] l IH]; intros HL; [reflexivity|]. cbn [map concat flat_map fst snd]. rewrite flat_map_app. f_equal; [|apply IH; intros tp Htp; apply HL; now right].
        pose proof (HL (t, p) (or_introl eq_refl)) as Ht. destruct (table_part t p Ht) as [Et (_ & _ & _ & PF)]. clear IH HL.
        assert (PF' : forall f, In f (p_flushes L p) -> forall c, In c (tf_cols f) \/ In c (tf_sels f) -> column_of L t (length (t_cols L t)) (p_lv L p) c) by exact PF. clear PF.
        induction (p_flushes L p) as [|f fs IH]; [reflexivity|]. cbn [map flat_map]. f_equal; [|apply IH; intros f' Hf'; apply PF'; now right]. specialize (PF' f (or_introl eq_refl)).
        unfold flush_events, flush_sends. cbn [flush_at fl_channel fl_dir fl_multiplicity fl_table fl_log_values_per_row]. fold (size_of L sizes t).
        destruct (Nat.eq_dec (size_of L sizes t) 0) as [Z|NZ]; [rewrite Z; reflexivity|].
        assert (CE : forall c r j, In c (tf_cols f) \/ In c (tf_sels f) -> ChannelProps.cell F (wit L os V) (lk c) (r * 2 ^ p_lv L p + j) = view V c r j).
        { intros c r j Hc. rewrite (view_at t p _ c V r j Ht (PF' c Hc)). destruct (part_present t p _ _ c Ht (PF' c Hc) NZ) as (o & P & _). unfold ChannelProps.cell, wit. unfold present in P. now rewrite P. }
        pose proof (grid (size_of L sizes t) (2 ^ p_lv L p) 0) as GR. rewrite Nat.mul_0_l in GR. rewrite <- GR. clear GR. rewrite filter_map, map_map.
        assert (SE : forall rj, selected F (wit L os V) (flush_at L lk (t_id L t) (p_lv L p) f) (fst rj * 2 ^ p_lv L p + snd rj) = forallb (fun c => negb (feqb (view V c (fst rj) (snd rj)) f0)) (tf_sels f)).
        { intros rj. unfold selected. cbn [flush_at fl_selectors]. assert (CE' : forall c, In c (tf_sels f) -> ChannelProps.cell F (wit L os V) (lk c) (fst rj * 2 ^ p_lv L p + snd rj) = view V c (fst rj) (snd rj)) by (intros c Hc; apply CE; now right).
          clear - CE'. induction (tf_sels f) as [|c l IH]; [reflexivity|]. cbn [map forallb]. rewrite CE' by now left. rewrite IH; [reflexivity|]. intros c' Hc'. apply CE'. now right. }
        rewrite (filter_ext _ _ SE). apply map_ext. intros rj. f_equal. unfold tuple. cbn [flush_at fl_oracles]. rewrite map_map. apply map_ext_in. intros c Hc. apply CE. now left. }
      now apply G.
    Qed.

    Lemma broken_violation bc domain_bits bs e : broken_tables L D bc domain_bits ts sizes bs (view V) os sys e -> violation L D bc domain_bits os V sys sizes bs e.
    Proof.
      intros [t p z r j v B1 B2 B3 Ht Hz R Hr Hj EV NZ|t p f x wd es Ht Hf R WD NE|c i r j E NZ R Hr Hj W].
      - destruct (table_part t p Ht) as [Et (_ & PC & _ & _)]. destruct (constraint_for t p Ht) as (tc & Htc & TA); [intros X; rewrite X in Hz; destruct Hz|]. unfold tables_at in TA. destruct (p_zeros L p) as [|z0 zs]; [destruct Hz|].
        destruct TA as (tc' & E & T1 & T2 & T3 & T4). injection E as <-.
        assert (X : exists con, In con (tc_constraints L tc) /\ same_constraint L (map lk (p_cols L p)) (tc_ids L tc) z con).
        { clear - T4 Hz. induction T4 as [|z' c l l' S FA IH]; [destruct Hz|]. destruct Hz as [->|Hz]; [exists c; split; [now left|exact S]|]. destruct (IH Hz) as (c' & H1 & H2). exists c'. split; [now right|exact H2]. }
        destruct X as ([c s] & Hc & (SN & _ & _ & _ & _ & SE)). cbn [fst snd] in *. subst s.
        apply (broken_constraint L D bc domain_bits os V sys sizes bs tc c (r * 2 ^ p_lv L p + j) v); auto.
        + rewrite T1. exact R.
        + rewrite T1, T2. fold (size_of L sizes t). rewrite Nat.pow_add_r. nia.
        + rewrite SE, map_map. rewrite <- EV. f_equal. apply map_ext_in. intros c' Hc'. symmetry. apply (view_at t p _ c' V r j Ht (PC c' Hc')).
      - subst es. rewrite <- events_agree in *. apply (unbalanced_channel L D bc domain_bits os V sys sizes bs (tf_channel f) x wd); auto.
        exists (flush_at L lk (t_id L t) (p_lv L p) f). split; [|split; [reflexivity|]].
        + destruct compiled_system as (-> & _). unfold flushes_at. apply in_concat. eexists. split; [apply in_map_iff; exists (t, p); split; [reflexivity|exact Ht]|]. cbn [fst snd]. now apply in_map.
        + unfold nonempty. cbn [flush_at fl_table]. apply Nat.ltb_lt. unfold size_of in R. lia.
      - destruct (in_info L ts c i OK E) as [Hi <-]. destruct (proj2 (col_present i Hi) R) as (o & P & N). apply (zero_value L D bc domain_bits os V sys sizes bs (lk (ci_id L i)) o (r * 2 ^ ci_lv L i + j)); auto.
        + destruct compiled_system as (_ & _ & -> & _). apply in_map_iff. exists i. split; [reflexivity|]. now apply filter_In.
        + rewrite N, Nat.pow_add_r. nia.
        + unfold CompileSpec.view in W. now rewrite (lv_of_col L ts OK i Hi) in W.
    Qed.
  End Sound.
End Compile.

(** C78, soundness from the tables to the committed message.  The tables are built with the builder and compiled; the committed message
    [W] holds committed columns, which with the definitions of the other columns give the cells [w].  If [w] violates an assertion of the
    tables (a row where an expression that must be zero is not, a channel that does not balance, a zero in a column that must not vanish)
    then, against any strategy of the prover, at most the stated fraction of the challenges make the verifier accept with at most [B]
    evaluation claims while the value obtained from FRI is that of the message. *)
Theorem m3_soundness L D levels u32 bc domain_bits arities dl fri fuel (ts : list (tbl L)) channels k sizes (os : oset L) (W : nat -> TF L) V bs B e :
  let w := view L (oracle_of L k) ts V in
  (forall id t, nth_error ts id = Some t -> exists hs, built L id t hs) -> all_compilable L ts -> compile L ts channels = Ok k ->
  sizes_fit L ts sizes -> instantiate L (c_oracles L k) sizes = Ok os -> consistent os V -> verifiable L D ts -> selectors_boolean L ts sizes w ->
  message_holds L levels os W V -> broken_tables L D bc domain_bits ts sizes bs w os (c_system L k) e ->
  forall (strategy : list (TF L) -> nat -> list (TF L)) (S : list (TF L)) (q : nat) (T : list (list (TF L))), NoDup S -> NoDup T ->
    (forall cs, In cs T -> length cs = q /\ incl cs S /\ exists n chal value,
       vplay (verify_system L levels u32 bc domain_bits arities dl fri fuel (c_system L k) os sizes bs) strategy [] 0 cs = Ok (n, (chal, value)) /\
       n <= B /\ value = mle W chal) ->
    length T * length S <=
      ((e + claims_error L D os (c_system L k) sizes) + ((log2_ceil B + L) + (B + 3 * total_vars (meta_new (column_counts L os))))) * length S ^ q.
Proof.
  intros w BT CP EK SF EI CO VB SB HW BR. assert (OK : tables_ok L ts). { intros n t E. destruct (BT n t E) as [hs H]. destruct (builder_correct L n t hs H) as (H1 & H2 & _). auto. }
  apply (constraint_system_soundness L D levels u32 bc domain_bits arities dl fri fuel os W V (c_system L k) sizes bs B e).
  - exact (compiled_ok L D ts channels k sizes os OK CP EK SF EI V CO VB SB).
  - exact HW.
  - exact (broken_violation L D ts channels k sizes os OK CP EK SF EI V bc domain_bits bs e BR).
Qed.
