(** The methods of the M3 table builder keep tables well-formed (for C78). *)
Require Import Coq.NArith.NArith Coq.Arith.Arith Coq.Lists.List Coq.Bool.Bool Lia.
From Verif Require Import Base.Fld Base.Lists Base.Sums Math.MleSpec Math.ArithModel Math.ArithProofs Math.ArithProps Field.TowerProofs
  Transparent.ShiftModel Cs.FlushModel Cs.ChannelModel Evalcheck.EvalProofs M3.CompileModel M3.CompileSpec M3.RemapProofs.
Import ListNotations.
Local Close Scope N_scope.
Local Open Scope nat_scope.

Section Builder.
  Variable L : nat.
  Notation F := (TF L).
  Notation tbl := (tbl L).
  Notation part := (part L).
  Notation ex := (ex L).
  Implicit Types (t : tbl) (p : part).

  (** * Partitions *)
  Lemma entry_same (l : list (option part)) k p : nth_error (set_entry L l k p) k = Some (Some p).
  Proof. unfold set_entry. apply nth_error_upd_eq. rewrite app_length, repeat_length. lia. Qed.
  Lemma entry_other (l : list (option part)) k p k' : k' <> k ->
    match nth_error (set_entry L l k p) k' with Some (Some p) => Some p | _ => None end = match nth_error l k' with Some (Some p) => Some p | _ => None end.
  Proof.
    intros H. unfold set_entry. rewrite nth_error_upd, (proj2 (Nat.eqb_neq _ _)) by auto.
    destruct (Nat.lt_ge_cases k' (length l)) as [Hl|Hl].
    - now rewrite nth_error_app1.
    - rewrite nth_error_app2 by auto. rewrite (proj2 (nth_error_None l k') Hl).
      destruct (nth_error (repeat None _) _) as [[q|]|] eqn:E; auto. apply nth_error_In in E. apply repeat_spec in E. discriminate.
  Qed.
  Lemma part_with t lv p lv' : part_of L (with_part L t lv p) lv' = if lv' =? lv then Some p else part_of L t lv'.
  Proof.
    unfold part_of, with_part. cbn [t_parts]. destruct (Nat.eqb_spec lv' lv) as [->|N]; [now rewrite entry_same|]. now apply entry_other.
  Qed.

  (** * Extension of tables *)
  Definition same_column (i i' : cinfo L) : Prop := ci_id L i' = ci_id L i /\ ci_def L i' = ci_def L i /\ ci_level L i' = ci_level L i /\ ci_lv L i' = ci_lv L i.
  Definition sub t t' : Prop :=
    t_id L t' = t_id L t /\
    (forall n i, nth_error (t_cols L t) n = Some i -> exists i', nth_error (t_cols L t') n = Some i' /\ same_column i i') /\
    (forall lv p, part_of L t lv = Some p -> exists p' e, part_of L t' lv = Some p' /\ p_cols L p' = p_cols L p ++ e).

  Lemma over_more p p' e c : p_cols L p' = p_cols L p ++ e -> over_partition L p c -> over_partition L p' c.
  Proof. intros E [W N]. split; [exact W|]. rewrite E, app_length. lia. Qed.
  Lemma sub_extends t t' : sub t t' -> extends L t t'.
  Proof.
    intros (S1 & S2 & S3). split.
    - intros h (H1 & (i & H2 & H3 & H4) & p & H5 & H6). destruct (S2 _ _ H2) as (i' & E & Q1 & Q2 & Q3 & Q4). destruct (S3 _ _ H5) as (p' & e & E' & EC).
      split; [congruence|]. split; [exists i'; repeat split; congruence|]. exists p'. split; [exact E'|]. rewrite EC. rewrite nth_error_app1; [exact H6|]. apply nth_error_Some. congruence.
    - intros lv e (H1 & p & H2 & H3). destruct (S3 _ _ H2) as (p' & x & E' & EC). split; [congruence|]. exists p'. split; [exact E'|]. eapply over_more; eauto.
  Qed.
  Lemma column_sub t t' n n' lv k : sub t t' -> n <= n' -> column_of L t n lv k -> column_of L t' n' lv k.
  Proof.
    intros (S1 & S2 & _) Hn (H1 & H2 & i & H3 & H4). split; [congruence|]. split; [lia|]. destruct (S2 _ _ H3) as (i' & E & Q1 & Q2 & Q3 & Q4). exists i'. split; [exact E|congruence].
  Qed.
  Lemma column_length t n lv k : column_of L t n lv k -> column_of L t (length (t_cols L t)) lv k.
  Proof. intros (H1 & H2 & i & H3 & H4). split; [exact H1|]. split; [apply nth_error_Some; congruence|]. eauto. Qed.
  Lemma column_ok_sub t t' n i i' : sub t t' -> same_column i i' -> (t_spec L t = Arbitrary \/ t_spec L t' = t_spec L t) -> column_ok L t n i -> column_ok L t' n i'.
  Proof.
    intros SB (_ & E1 & E2 & E3) SP. assert (C := fun lv k => column_sub t t' n n lv k SB (le_n n)). unfold column_ok. rewrite E1, E2, E3.
    destruct (ci_def L i); try tauto.
    - intros (H1 & H). split; [intros k Hk; apply C; auto|exact H].
    - intros (H1 & H2 & H3). split; [exact H1|]. split; [exact H2|]. now apply C.
    - intros (H1 & H2). split; [exact H1|]. now apply C.
    - intros (H1 & H2 & H3). split; [exact H1|]. split; [exact H2|]. now apply C.
    - intros (H1 & H2 & H3). split; [exact H1|]. split; [exact H2|]. now apply C.
    - apply C.
    - intros (H1 & H2). destruct SP as [SP|SP]; [congruence|]. split; congruence.
    - intros (H1 & H2). destruct SP as [SP|SP]; [congruence|]. split; congruence.
    - intros (H1 & H2 & H3 & H4). split; [exact H1|]. split; [exact H2|]. split; [exact H3|]. intros k Hk. apply C. auto.
    - intros (H1 & H2 & H3 & H4 & H5). split; [exact H1|]. split; [exact H2|]. split; [exact H3|]. split; [now apply C|]. intros k Hk. apply C. auto.
  Qed.
  Lemma part_ok_sub t t' lv p : sub t t' -> part_ok L t lv p -> part_ok L t' lv p.
  Proof.
    intros SB (H1 & H2 & H3 & H4).
    assert (HL : length (t_cols L t) <= length (t_cols L t')).
    { destruct SB as (_ & S2 & _). destruct (length (t_cols L t)) as [|n] eqn:EL; [lia|]. destruct (nth_error_ex (t_cols L t) n) as [i Ei]; [lia|].
      destruct (S2 _ _ Ei) as (i' & E' & _). assert (n < length (t_cols L t')) by (apply nth_error_Some; congruence). lia. }
    split; [exact H1|]. split; [|split; [exact H3|]]; intros.
    - eapply column_sub; eauto.
    - eapply column_sub; eauto.
  Qed.

  (** A new partition entry: the columns of the partition may grow, the columns of the table stay. *)
  Lemma part_or_cases t lv : table_ok L t -> part_ok L t lv (part_or_new L t lv) /\ (part_of L t lv = Some (part_or_new L t lv) \/ part_of L t lv = None /\ p_cols L (part_or_new L t lv) = []).
  Proof.
    intros [_ HP]. unfold part_or_new. destruct (part_of L t lv) as [p|] eqn:E.
    - split; [now apply HP|]. now left.
    - split; [|now right]. split; [reflexivity|]. repeat split; cbn; intros; contradiction.
  Qed.
  Lemma sub_with t lv p e : table_ok L t -> p_cols L p = p_cols L (part_or_new L t lv) ++ e -> sub t (with_part L t lv p).
  Proof.
    intros OK E. split; [reflexivity|]. split.
    - intros n i H. exists i. split; [exact H|]. repeat split.
    - intros lv' q Hq. rewrite part_with. destruct (Nat.eqb_spec lv' lv) as [->|N].
      + exists p, e. split; [reflexivity|]. rewrite E. f_equal. unfold part_or_new. now rewrite Hq.
      + exists q, []. split; [exact Hq|]. now rewrite app_nil_r.
  Qed.
  Lemma with_ok t lv p : table_ok L t -> p_cols L p = p_cols L (part_or_new L t lv) -> part_ok L t lv p -> table_ok L (with_part L t lv p).
  Proof.
    intros OK E HP. assert (SB : sub t (with_part L t lv p)) by (apply (sub_with t lv p []); [exact OK|now rewrite app_nil_r]). split.
    - intros n i H. destruct (proj1 OK n i H) as (H1 & H2 & q & H3 & H4). split; [exact H1|]. split; [apply (column_ok_sub t _ n i i); auto; repeat split|].
      rewrite part_with. destruct (Nat.eqb_spec (ci_lv L i) lv) as [El|N].
      + exists p. split; [reflexivity|]. rewrite E. unfold part_or_new. rewrite <- El, H3. exact H4.
      + eauto.
    - intros lv' q. rewrite part_with. destruct (Nat.eqb_spec lv' lv) as [->|N].
      + intros [= <-]. eapply part_ok_sub; eauto.
      + intros Hq. eapply part_ok_sub; eauto. now apply OK.
  Qed.

  Definition result t (h : hcol) t' : Prop := table_ok L t' /\ handle L t' h /\ extends L t t'.

  Lemma new_column_ok t level lv d : table_ok L t -> column_ok L t (length (t_cols L t)) (mkInfo L (t_id L t, length (t_cols L t)) d level lv false) ->
    let ht := new_column L t level lv d in result t (fst ht) (snd ht) /\ sub t (snd ht) /\ h_level (fst ht) = level /\ h_lv (fst ht) = lv /\
      t_spec L (snd ht) = t_spec L t /\ exists i, nth_error (t_cols L (snd ht)) (snd (h_id (fst ht))) = Some i /\ ci_def L i = d /\ fst (h_id (fst ht)) = t_id L t /\ length (t_cols L t) <= snd (h_id (fst ht)).
  Proof.
    intros OK CO ht. set (n := length (t_cols L t)) in *. set (id := (t_id L t, n)) in *. set (i := mkInfo L id d level lv false) in *.
    set (q := part_or_new L t lv). set (p := mkPart L (p_lv L q) (p_flushes L q) (p_cols L q ++ [id]) (p_zeros L q)).
    set (t1 := with_part L t lv p). set (t' := mkTbl L (t_id L t1) (t_cols L t1 ++ [i]) (t_spec L t1) (t_parts L t1)).
    assert (EH : ht = (mkCol id (length (p_cols L q)) level lv, t')) by reflexivity. rewrite EH. cbn [fst snd h_level h_lv h_id]. clear EH ht.
    assert (EP : forall lv', part_of L t' lv' = if lv' =? lv then Some p else part_of L t lv') by (intros lv'; apply (part_with t lv p lv')).
    assert (SB : sub t t').
    { assert (SB1 : sub t t1) by (apply (sub_with t lv p [id]); [exact OK|reflexivity]). destruct SB1 as (S1 & S2 & S3). split; [reflexivity|]. split; [|exact S3].
      intros m j Hj. exists j. split; [|repeat split]. unfold t'. cbn [t_cols t1 with_part]. rewrite nth_error_app1; [exact Hj|]. apply nth_error_Some. congruence. }
    assert (EN : nth_error (t_cols L t') n = Some i).
    { unfold t', t1, n. cbn [t_cols with_part]. rewrite nth_error_app2, Nat.sub_diag by lia. reflexivity. }
    assert (LN : length (t_cols L t') = S n) by (unfold t', t1; cbn [t_cols with_part]; rewrite app_length; cbn [length]; fold n; lia).
    destruct (part_or_cases t lv OK) as [PQ PC]. fold q in PQ, PC.
    assert (OK' : table_ok L t').
    { split.
      - intros m j Hj. assert (Hm : m < S n) by (rewrite <- LN; apply nth_error_Some; congruence). destruct (Nat.eq_dec m n) as [->|Nm].
        + rewrite EN in Hj. injection Hj as <-. split; [reflexivity|]. split; [apply (column_ok_sub t t' n i i); [exact SB|repeat split|now right|exact CO]|].
          exists p. rewrite EP. unfold i at 1. cbn [ci_lv]. rewrite Nat.eqb_refl. split; [reflexivity|]. unfold p. cbn [p_cols]. apply in_or_app. right. now left.
        + assert (Hj' : nth_error (t_cols L t) m = Some j).
          { unfold t', t1 in Hj. cbn [t_cols with_part] in Hj. rewrite nth_error_app1 in Hj; [exact Hj|]. fold n. lia. }
          destruct (proj1 OK m j Hj') as (H1 & H2 & p0 & H3 & H4). split; [exact H1|]. split; [apply (column_ok_sub t t' m j j); [exact SB|repeat split|now right|exact H2]|].
          rewrite EP. destruct (Nat.eqb_spec (ci_lv L j) lv) as [El|Nl]; [|eauto]. exists p. split; [reflexivity|]. unfold p. cbn [p_cols]. apply in_or_app. left.
          unfold q, part_or_new. rewrite <- El, H3. exact H4.
      - intros lv' p0. rewrite EP. destruct (Nat.eqb_spec lv' lv) as [->|Nl].
        + intros [= <-]. apply (part_ok_sub t t' lv q SB) in PQ. destruct PQ as (Q1 & Q2 & Q3 & Q4). split; [exact Q1|]. split; [|split; [|exact Q4]].
          * unfold p. cbn [p_cols]. intros k Hk. apply in_app_iff in Hk as [Hk|[<-|[]]]; [now apply Q2|]. split; [reflexivity|]. split; [unfold id; cbn [snd]; lia|]. exists i. split; [exact EN|reflexivity].
          * intros c Hc. apply (over_more q p [id]); [reflexivity|]. now apply Q3.
        + intros H. apply (part_ok_sub t t' lv' p0 SB). now apply OK. }
    split; [|split; [exact SB|split; [reflexivity|split; [reflexivity|split; [reflexivity|exists i; split; [exact EN|split; [reflexivity|split; [reflexivity|unfold id; cbn [snd]; lia]]]]]]]].
    split; [exact OK'|]. split; [|now apply sub_extends]. split; [reflexivity|]. split; [exists i; repeat split; exact EN|].
    cbn [h_lv h_pidx h_id]. exists p. rewrite EP, Nat.eqb_refl. split; [reflexivity|]. unfold p. cbn [p_cols]. rewrite nth_error_app2, Nat.sub_diag by lia. reflexivity.
  Qed.

  Lemma handle_column t h : handle L t h -> column_of L t (length (t_cols L t)) (h_lv h) (h_id h).
  Proof. intros (H1 & (i & H2 & H3 & H4) & _). split; [exact H1|]. split; [apply nth_error_Some; congruence|]. eauto. Qed.

  Lemma new_committed t level lv h t' : table_ok L t -> add_committed L t level lv = (h, t') -> result t h t'.
  Proof. intros OK E. unfold add_committed in E. pose proof (new_column_ok t level lv (CdCommitted L level) OK eq_refl) as (K & _). rewrite E in K. exact K. Qed.

  Lemma ok_inj {A} (a b : A) : Ok a = Ok b -> a = b.
  Proof. now intros [= ->]. Qed.
  Lemma of_new t level lv d h t' : table_ok L t -> new_column L t level lv d = (h, t') ->
    column_ok L t (length (t_cols L t)) (mkInfo L (t_id L t, length (t_cols L t)) d level lv false) -> result t h t'.
  Proof. intros OK E CO. pose proof (new_column_ok t level lv d OK CO) as (K & _). rewrite E in K. exact K. Qed.

  Lemma new_shifted t c b o sv h t' : table_ok L t -> handle L t c -> add_shifted L t c b o sv = Ok (h, t') -> result t h t'.
  Proof.
    intros OK HC. unfold add_shifted. destruct (Nat.ltb_spec (h_lv c) b) as [H1|H1]; [discriminate|]. destruct (Nat.ltb_spec (2 ^ b) o) as [H2|H2]; [discriminate|].
    cbn [orb]. intros E; apply ok_inj in E. apply (of_new _ _ _ _ _ _ OK E). split; [exact H1|]. split; [exact H2|]. now apply handle_column.
  Qed.
  Lemma new_packed t c level lv h t' : table_ok L t -> handle L t c -> add_packed L t c level lv = Ok (h, t') -> result t h t'.
  Proof.
    intros OK HC. unfold add_packed. destruct (Nat.ltb_spec (h_level c) level) as [H1|H1]; [|discriminate]. destruct (Nat.ltb_spec lv (h_lv c)) as [H2|H2]; [|discriminate].
    destruct (Nat.eqb_spec (level + lv) (h_level c + h_lv c)) as [H3|H3]; [|discriminate]. cbn [andb negb]. intros E; apply ok_inj in E. apply (of_new _ _ _ _ _ _ OK E).
    cbn [column_ok ci_def ci_lv]. replace (lv + (level - h_level c)) with (h_lv c) by lia. now apply handle_column.
  Qed.
  Lemma new_selected t c ix h t' : table_ok L t -> handle L t c -> add_selected L t c ix = Ok (h, t') -> result t h t'.
  Proof.
    intros OK HC. unfold add_selected. destruct (Nat.ltb_spec ix (2 ^ h_lv c)) as [H1|H1]; [|discriminate]. cbn [negb]. intros E; apply ok_inj in E. apply (of_new _ _ _ _ _ _ OK E).
    split; [reflexivity|]. split; [exact H1|]. now apply handle_column.
  Qed.
  Lemma new_block t c lv ix h t' : table_ok L t -> handle L t c -> add_selected_block L t c lv ix = Ok (h, t') -> result t h t'.
  Proof.
    intros OK HC. unfold add_selected_block. destruct (Nat.ltb_spec lv (h_lv c)) as [H1|H1]; [|discriminate]. cbn [negb]. intros E; apply ok_inj in E. apply (of_new _ _ _ _ _ _ OK E).
    split; [reflexivity|]. cbn [ci_lv]. replace (lv + (h_lv c - lv)) with (h_lv c) by lia. now apply handle_column.
  Qed.
  Lemma new_pad t c lv nz h t' : table_ok L t -> handle L t c -> add_zero_pad L t c lv nz = Ok (h, t') -> result t h t'.
  Proof.
    intros OK HC. unfold add_zero_pad. destruct (Nat.ltb_spec (h_lv c) lv) as [H1|H1]; [|discriminate]. destruct (Nat.ltb_spec nz (2 ^ (lv - h_lv c))) as [H2|H2]; [|discriminate].
    cbn [andb negb]. intros E; apply ok_inj in E. apply (of_new _ _ _ _ _ _ OK E). split; [cbn [ci_lv]; lia|]. split; [exact H2|]. now apply handle_column.
  Qed.
  Lemma new_upcast t c lv h t' : table_ok L t -> handle L t c -> add_zero_pad_upcast L t c lv = Ok (h, t') -> result t h t'.
  Proof.
    intros OK HC. unfold add_zero_pad_upcast. destruct (Nat.ltb_spec (h_lv c) lv) as [H1|H1]; [|discriminate]. cbn [negb]. intros E; apply ok_inj in E. apply (of_new _ _ _ _ _ _ OK E).
    split; [cbn [ci_lv]; lia|]. split; [|now apply handle_column]. pose proof (Nat.pow_nonzero 2 (lv - h_lv c)). lia.
  Qed.
  Lemma new_constant t level lv data h t' : table_ok L t -> length data = 2 ^ lv -> add_constant L t level lv data = (h, t') -> result t h t'.
  Proof. intros OK HD E. apply (of_new _ _ _ _ _ _ OK E). split; [exact HD|reflexivity]. Qed.
  Lemma new_structured t level max h t' : table_ok L t -> add_structured L t level max = Ok (h, t') -> result t h t'.
  Proof. intros OK. unfold add_structured. destruct (t_spec L t) eqn:ES; try discriminate. intros E; apply ok_inj in E. apply (of_new _ _ _ _ _ _ OK E). split; [reflexivity|exact ES]. Qed.
  Lemma new_fixed t level c h t' : table_ok L t -> add_fixed L t level c = Ok (h, t') -> result t h t'.
  Proof.
    intros OK. unfold add_fixed. destruct (t_spec L t) as [|ls|] eqn:ES; try discriminate. destruct (Nat.eqb_spec ls (n_vars c)) as [->|]; [|discriminate].
    intros E; apply ok_inj in E. apply (of_new _ _ _ _ _ _ OK E). split; [reflexivity|exact ES].
  Qed.
  Lemma bits_columns t bits : (forall b, In b bits -> handle L t b /\ h_lv b = 0) -> forall k, In k (map h_id bits) -> column_of L t (length (t_cols L t)) 0 k.
  Proof. intros H k Hk. apply in_map_iff in Hk as (b & <- & Hb). destruct (H b Hb) as [HH <-]. now apply handle_column. Qed.
  Lemma new_static t bits base level h t' : table_ok L t -> (forall b, In b bits -> handle L t b /\ h_lv b = 0) -> add_static_exp L t bits base level = Ok (h, t') -> result t h t'.
  Proof.
    intros OK HB. unfold add_static_exp. destruct (Nat.ltb_spec (2 ^ level) (length bits)) as [H|H]; [discriminate|]. destruct (negb _); [discriminate|]. intros E; apply ok_inj in E.
    apply (of_new _ _ _ _ _ _ OK E). cbn [column_ok ci_def ci_lv ci_level]. rewrite map_length. split; [reflexivity|]. split; [reflexivity|]. split; [exact H|]. now apply bits_columns.
  Qed.
  Lemma new_dynamic t bits base h t' : table_ok L t -> (forall b, In b bits -> handle L t b /\ h_lv b = 0) -> handle L t base -> h_lv base = 0 -> add_dynamic_exp L t bits base = Ok (h, t') -> result t h t'.
  Proof.
    intros OK HB HX HV. unfold add_dynamic_exp. destruct (Nat.ltb_spec (2 ^ h_level base) (length bits)) as [H|H]; [discriminate|]. destruct (negb _); [discriminate|]. intros E; apply ok_inj in E.
    apply (of_new _ _ _ _ _ _ OK E). cbn [column_ok ci_def ci_lv ci_level]. rewrite map_length. split; [reflexivity|]. split; [reflexivity|]. split; [exact H|].
    split; [rewrite <- HV; now apply handle_column|]. now apply bits_columns.
  Qed.

  (** * Constraints and flushes *)
  Lemma zero_ok t lv e : table_ok L t -> expression L t lv e -> table_ok L (assert_zero L t lv e) /\ extends L t (assert_zero L t lv e).
  Proof.
    intros OK (_ & p & EP & OV). unfold assert_zero. destruct (part_or_cases t lv OK) as [(P1 & P2 & P3 & P4) _].
    assert (EQ : part_or_new L t lv = p) by (unfold part_or_new; now rewrite EP). rewrite EQ in *.
    split.
    - apply with_ok; [exact OK|now rewrite EQ|]. split; [exact P1|]. split; [exact P2|]. split; [|exact P4].
      cbn [p_zeros]. intros c Hc. apply in_app_iff in Hc as [Hc|[<-|[]]]; [now apply P3|exact OV].
    - apply sub_extends. apply (sub_with t lv _ []); [exact OK|]. rewrite EQ, app_nil_r. reflexivity.
  Qed.
  Lemma flush_ok t lv f : table_ok L t -> (forall k, In k (tf_cols f) \/ In k (tf_sels f) -> column_of L t (length (t_cols L t)) lv k) ->
    table_ok L (add_flush L t lv f) /\ extends L t (add_flush L t lv f).
  Proof.
    intros OK HF. unfold add_flush. destruct (part_or_cases t lv OK) as [(P1 & P2 & P3 & P4) _]. split.
    - apply with_ok; [exact OK|reflexivity|]. split; [exact P1|]. split; [exact P2|]. split; [exact P3|].
      cbn [p_flushes]. intros g Hg. apply in_app_iff in Hg as [Hg|[<-|[]]]; [now apply P4|exact HF].
    - apply sub_extends. apply (sub_with t lv _ []); [exact OK|]. rewrite app_nil_r. reflexivity.
  Qed.
  Lemma handles_columns t lv (cs : list hcol) : (forall c, In c cs -> handle L t c /\ h_lv c = lv) -> forall k, In k (map h_id cs) -> column_of L t (length (t_cols L t)) lv k.
  Proof. intros H k Hk. apply in_map_iff in Hk as (b & <- & Hb). destruct (H b Hb) as [HH <-]. now apply handle_column. Qed.
  Lemma flush_opts_ok t dir ch cs mult sels t' : table_ok L t -> (forall c, In c cs \/ In c sels -> handle L t c /\ h_lv c = 0) ->
    flush_with_opts L t dir ch cs mult sels = Ok t' -> table_ok L t' /\ extends L t t'.
  Proof.
    intros OK H. unfold flush_with_opts. destruct (negb _); [discriminate|]. intros [= <-]. apply flush_ok; [exact OK|]. cbn [tf_cols tf_sels].
    intros k [Hk|Hk]; revert k Hk; apply handles_columns; auto.
  Qed.
  Lemma read_ok t lv ch cs t' : table_ok L t -> (forall c, In c cs -> handle L t c /\ h_lv c = lv) -> read L t lv ch cs = Ok t' -> table_ok L t' /\ extends L t t'.
  Proof.
    intros OK H. unfold read. destruct (negb _); [discriminate|]. intros [= <-]. apply flush_ok; [exact OK|]. cbn [tf_cols tf_sels].
    intros k [Hk|[]]. revert k Hk. now apply handles_columns.
  Qed.
  Lemma nonzero_ok t c t' : table_ok L t -> assert_nonzero L t c = Ok t' -> table_ok L t' /\ extends L t t'.
  Proof.
    intros OK. unfold assert_nonzero. destruct (negb _); [discriminate|]. destruct (nth_error (t_cols L t) (snd (h_id c))) as [i|] eqn:Ei; [|discriminate]. intros [= <-].
    set (i' := mkInfo L _ _ _ _ true). set (t' := mkTbl L _ _ _ _). assert (SC : same_column i i') by (repeat split).
    assert (NE : forall n, nth_error (t_cols L t') n = if n =? snd (h_id c) then Some i' else nth_error (t_cols L t) n).
    { intros n. unfold t'. cbn [t_cols]. rewrite nth_error_upd. destruct (Nat.eqb_spec n (snd (h_id c))) as [->|]; [|reflexivity]. rewrite (proj2 (Nat.ltb_lt _ _)); [reflexivity|]. apply nth_error_Some. congruence. }
    assert (SB : sub t t').
    { split; [reflexivity|]. split.
      - intros n j Hj. rewrite NE. destruct (Nat.eqb_spec n (snd (h_id c))) as [->|]; [|exists j; split; [exact Hj|repeat split]]. rewrite Ei in Hj. injection Hj as <-. eauto.
      - intros lv p Hp. exists p, []. split; [exact Hp|now rewrite app_nil_r]. }
    split; [|now apply sub_extends]. split.
    - intros n j Hj. assert (exists j0, nth_error (t_cols L t) n = Some j0 /\ same_column j0 j) as (j0 & E0 & SJ).
      { rewrite NE in Hj. destruct (Nat.eqb_spec n (snd (h_id c))) as [->|]; [injection Hj as <-; eauto|exists j; split; [exact Hj|repeat split]]. }
      destruct (proj1 OK n j0 E0) as (H1 & H2 & p & H3 & H4). pose proof SJ as (Q1 & Q2 & Q3 & Q4). split; [rewrite Q1; exact H1|].
      split; [apply (column_ok_sub t t' n j0 j); auto|]. rewrite Q1, Q4. eauto.
    - intros lv p Hp. apply (part_ok_sub t t' lv p SB). now apply OK.
  Qed.
  Lemma spec_ok t sp : table_ok L t -> t_spec L t = Arbitrary -> let t' := mkTbl L (t_id L t) (t_cols L t) sp (t_parts L t) in table_ok L t' /\ extends L t t'.
  Proof.
    intros OK SP t'. assert (SB : sub t t').
    { split; [reflexivity|]. split; [intros n i H; exists i; split; [exact H|repeat split]|]. intros lv p Hp. exists p, []. split; [exact Hp|now rewrite app_nil_r]. }
    split; [|now apply sub_extends]. split.
    - intros n i H. destruct (proj1 OK n i H) as (H1 & H2 & H3). split; [exact H1|]. split; [|exact H3]. apply (column_ok_sub t t' n i i); auto; repeat split.
    - intros lv p Hp. apply (part_ok_sub t t' lv p SB). now apply OK.
  Qed.

  (** * Computed columns *)
  Lemma computed_columns t lv p c u : part_of L t lv = Some p -> over_partition L p c -> vars_usage c = Some u ->
    exists cols c', omap (nth_error (p_cols L p)) (used_indices u) = Some cols /\ remap_vars c (fill_from 0 (used_indices u) (repeat 0 (n_vars c))) = Ok c' /\
      cwf F c' /\ n_vars c' <= length cols /\ degree c' = degree c /\ (forall k, In k cols -> In k (p_cols L p)) /\
      forall f : cid -> F, evaluate c' (map f cols) = evaluate c (map f (p_cols L p)).
  Proof.
    intros EP [W NV] EU. destruct (vars_usage_correct F c) as (u' & EU' & LU & SU & _). rewrite EU in EU'. injection EU' as <-.
    set (used := used_indices u).
    assert (US : forall i, In i used <-> In (SVar i) c) by (intros i; unfold used; rewrite used_spec; apply SU).
    assert (UB : forall i, In i used -> i < n_vars c) by (intros i Hi; apply in_n_vars, US, Hi).
    assert (OC : exists cols, omap (nth_error (p_cols L p)) used = Some cols).
    { assert (B : forall i, In i used -> i < length (p_cols L p)) by (intros i Hi; specialize (UB i Hi); lia). clear -B. induction used as [|i l IH]; [exists []; reflexivity|].
      cbn [omap]. destruct (nth_error_ex (p_cols L p) i) as [k ->]; [apply B; now left|]. destruct IH as [cols ->]; [intros j Hj; apply B; now right|]. eauto. }
    destruct OC as [cols OC]. set (ind := fill_from 0 used (repeat 0 (n_vars c))).
    destruct (remap_ok F c ind) as [c' EC]; [intros i Hi; unfold ind; rewrite fill_length, repeat_length; now apply in_n_vars|].
    pose proof (proj1 (omap_spec _ _ _) OC) as [OL ON].
    assert (IS : forall i j, In (SVar i) c -> nth_error ind i = Some j -> nth_error used j = Some i).
    { intros i j Hi Hj. apply US in Hi as Hu. apply In_nth_error in Hu as [n Hn]. unfold ind in Hj.
      rewrite (fill_spec used (used_nodup u) 0 (repeat 0 (n_vars c)) n i Hn) in Hj by (rewrite repeat_length; apply UB; eapply nth_error_In; eauto). injection Hj as <-. exact Hn. }
    exists cols, c'. split; [exact OC|]. split; [exact EC|]. split; [eapply remap_wf; eauto|]. split; [|split; [eapply remap_degree; eauto|split]].
    - apply n_vars_le. intros j Hj. destruct (remap_in F _ _ _ _ EC Hj) as (i & Hi & Ei). rewrite OL. apply nth_error_Some. rewrite (IS i j Hi Ei). discriminate.
    - intros k Hk. apply In_nth_error in Hk as [n Hn]. destruct (nth_error_ex used n) as [i Hi]; [rewrite <- OL; apply nth_error_Some; congruence|].
      rewrite (ON n i Hi) in Hn. eapply nth_error_In; eauto.
    - intros f. apply (remap_evaluate F c ind); [exact EC|]. intros i j Hi Ej. rewrite !nth_error_map. f_equal. rewrite (ON j i); [reflexivity|]. now apply IS.
  Qed.

  (** The value of a computed column is that of the expression, if the column definitions and the constraints of the table hold. *)
  Definition computes t (h : hcol) t' (e : ex) : Prop :=
    forall p, part_of L t (h_lv h) = Some p ->
    (exists i cols c, nth_error (t_cols L t') (snd (h_id h)) = Some i /\ ci_def L i = CdComputed L cols c /\
       forall f : cid -> F, evaluate c (map f cols) = evaluate (ex_circuit L e) (map f (p_cols L p))) \/
    (exists p' c, part_of L t' (h_lv h) = Some p' /\ In c (p_zeros L p') /\
       forall f : cid -> F, exists v, evaluate (ex_circuit L e) (map f (p_cols L p)) = Some v /\ evaluate c (map f (p_cols L p')) = Some (fsub v (f (h_id h)))).

  Lemma new_computed t level lv e : table_ok L t -> expression L t lv e -> exists h t', add_computed L t level lv e = Ok (h, t') /\ result t h t' /\ h_lv h = lv /\ computes t h t' e.
  Proof.
    intros OK HE. pose proof HE as (ET & p & EP & OV). pose proof OV as [W NV]. unfold add_computed.
    destruct (degree_leading_term_correct F (ex_circuit L e) W) as (d & _ & ED & _). rewrite ED. cbn [of_opt rbind].
    destruct (Nat.leb_spec d 1) as [Hd|Hd].
    - destruct (vars_usage_correct F (ex_circuit L e)) as (u & EU & _). rewrite EU. cbn [of_opt rbind]. rewrite EP. cbn [of_opt rbind].
      destruct (computed_columns t lv p _ u EP OV EU) as (cols & c' & OC & EC & W' & NV' & DG & IC & EV). rewrite OC. cbn [of_opt rbind]. rewrite EC.
      assert (CO : column_ok L t (length (t_cols L t)) (mkInfo L (t_id L t, length (t_cols L t)) (CdComputed L cols c') level lv false)).
      { cbn [column_ok ci_def ci_lv]. split; [|split; [exact W'|split; [exact NV'|exists d; split; [congruence|exact Hd]]]].
        intros k Hk. apply (proj2 OK lv p EP). now apply IC. }
      pose proof (new_column_ok t level lv _ OK CO) as (K & _ & _ & K2 & _ & i & K3 & K4 & _).
      destruct (new_column L t level lv (CdComputed L cols c')) as [h t']. cbn [fst snd] in *. exists h, t'. split; [reflexivity|]. split; [exact K|]. split; [exact K2|].
      intros q Eq. left. exists i, cols, c'. split; [exact K3|]. split; [exact K4|]. rewrite K2, EP in Eq. injection Eq as <-. exact EV.
    - pose proof (new_column_ok t level lv (CdCommitted L level) OK eq_refl) as (K & SB & _ & K2 & _). unfold add_committed.
      destruct (new_column L t level lv (CdCommitted L level)) as [h t1] eqn:EN. cbn [fst snd] in *. destruct K as (OK1 & H1 & X1).
      pose proof (proj2 X1 lv e HE) as (ET1 & p1 & EP1 & OV1). pose proof H1 as (HT & _ & p2 & EP2 & NP). rewrite K2, EP1 in EP2. injection EP2 as <-.
      unfold ex_op. cbn [col_expr ex_table ex_circuit]. rewrite HT, ET1, Nat.eqb_refl. cbn [rbind].
      set (e' := mkEx L _ _).
      assert (HE' : expression L t1 lv e').
      { split; [reflexivity|]. exists p1. split; [exact EP1|]. unfold e'. cbn [ex_circuit]. split.
        - apply circuits_wf; [apply OV1|apply circuits_wf].
        - unfold csub, cadd. rewrite !n_vars_app. apply Nat.max_lub; [|cbn; lia]. apply Nat.max_lub; [apply OV1|].
          unfold cvar. assert (h_pidx h < length (p_cols L p1)) by (apply nth_error_Some; congruence). cbn. lia. }
      destruct (zero_ok t1 lv e' OK1 HE') as [OK2 X2]. exists h, (assert_zero L t1 lv e'). split; [reflexivity|]. split; [|split; [exact K2|]].
      + split; [exact OK2|]. split; [now apply X2|]. split; [intros g Hg; apply X2; now apply X1|intros lv' x Hx; apply X2; now apply X1].
      + intros q Eq. rewrite K2 in *. rewrite EP in Eq. injection Eq as <-. right.
        exists (mkPart L (p_lv L p1) (p_flushes L p1) (p_cols L p1) (p_zeros L p1 ++ [ex_circuit L e'])), (ex_circuit L e').
        split; [unfold assert_zero; rewrite part_with, Nat.eqb_refl; unfold part_or_new; now rewrite EP1|]. split; [cbn [p_zeros]; apply in_or_app; right; now left|].
        intros f. cbn [p_cols]. destruct (evaluate_total F (ex_circuit L e) (map f (p_cols L p)) (proj2 W)) as [v Ev]; [now rewrite map_length|]. exists v. split; [exact Ev|].
        destruct SB as (_ & _ & S3). destruct (S3 lv p EP) as (p1' & x & E1 & EX). rewrite EP1 in E1. injection E1 as <-.
        assert (Ev1 : evaluate (ex_circuit L e) (map f (p_cols L p1)) = Some v).
        { rewrite <- Ev. destruct (vars_usage_correct F (ex_circuit L e)) as (u & EU & LU & SU & EXT). apply EXT. intros i Hi. rewrite !nth_error_map, EX. f_equal. apply nth_error_app1.
          apply SU in Hi. apply in_n_vars in Hi. lia. }
        unfold e'. cbn [ex_circuit]. apply (circuit_ops F (map f (p_cols L p1)) (ex_circuit L e) (cvar (h_pidx h)) v (f (h_id h)) 0%N W); auto.
        * apply circuits_wf.
        * unfold evaluate, evals, cvar. cbn [ofold step_val]. rewrite nth_error_map, NP. reflexivity.
        * apply TF_char2.
  Qed.
End Builder.
