(** Compilation of M3 tables: the whole constraint system (for C78). *)
Require Import Coq.NArith.NArith Coq.Arith.Arith Coq.Lists.List Coq.Bool.Bool Lia.
From Verif Require Import Base.Fld Base.Lists Base.Sums Math.ArithModel Math.ArithProofs Math.ArithProps Field.TowerModel Field.TowerProofs
  Transparent.TransparentModel Gkr.ExpModel Cs.ChannelModel Cs.FlushModel Cs.VerifyModel Evalcheck.OracleModel Evalcheck.EvalModel Evalcheck.SymbolicModel
  M3.CompileModel M3.CompileSpec M3.RemapProofs M3.BuilderProofs M3.CompileProofs M3.TranslateProofs.
Import ListNotations.
Local Close Scope N_scope.
Local Open Scope nat_scope.

Section System.
  Variable L : nat.
  Notation F := (TF L).
  Notation tbl := (tbl L).
  Notation cinfo := (cinfo L).

  Notation all_cols := (CompileSpec.all_cols L).
  Notation parts_of := (CompileSpec.parts_of L).

  Lemma all_cols_app ts ts' : all_cols (ts ++ ts') = all_cols ts ++ all_cols ts'.
  Proof. unfold CompileSpec.all_cols. now rewrite map_app, concat_app. Qed.
  Lemma parts_of_app ts ts' : parts_of (ts ++ ts') = parts_of ts ++ parts_of ts'.
  Proof. unfold CompileSpec.parts_of. now rewrite map_app, concat_app. Qed.

  Lemma part_in t p : In p (parts_list L t) -> exists lv, part_of L t lv = Some p.
  Proof.
    unfold parts_list, part_of. intros H. apply in_concat in H as (l & Hl & Hp). apply in_map_iff in Hl as (o & <- & Ho). destruct o as [p'|]; [|destruct Hp].
    destruct Hp as [<-|[]]. apply In_nth_error in Ho as [lv E]. exists lv. now rewrite E.
  Qed.
  Lemma in_parts t lv p : part_of L t lv = Some p -> In p (parts_list L t).
  Proof.
    unfold parts_list, part_of. destruct (nth_error (t_parts L t) lv) as [[p'|]|] eqn:E; try discriminate. intros [= ->]. apply in_concat. exists [p]. split; [|now left].
    apply in_map_iff. exists (Some p). split; [reflexivity|]. eapply nth_error_In; eauto.
  Qed.

  Lemma info_in ts i : tables_ok L ts -> In i (all_cols ts) -> info_of L ts (ci_id L i) = Some i.
  Proof.
    intros OK H. apply in_concat in H as (l & Hl & Hi). apply in_map_iff in Hl as (t & <- & Ht). apply In_nth_error in Ht as [a Ea]. apply In_nth_error in Hi as [b Eb].
    destruct (OK a t Ea) as [TI [TC _]]. destruct (TC b i Eb) as [E _]. unfold info_of. rewrite E. cbn [fst snd]. rewrite TI, Ea. exact Eb.
  Qed.
  Lemma in_info ts c i : tables_ok L ts -> info_of L ts c = Some i -> In i (all_cols ts) /\ ci_id L i = c.
  Proof.
    intros OK. unfold info_of. destruct (nth_error ts (fst c)) as [t|] eqn:Et; [|discriminate]. intros Ei. destruct (OK _ _ Et) as [TI [TC _]]. destruct (TC _ _ Ei) as [E _]. split.
    - apply in_concat. exists (t_cols L t). split; [apply in_map; eapply nth_error_In; eauto|eapply nth_error_In; eauto].
    - rewrite E, TI. now destruct c.
  Qed.

  Lemma ids_of_table t : table_ok L t -> map (ci_id L) (t_cols L t) = map (pair (t_id L t)) (seq 0 (length (t_cols L t))).
  Proof.
    intros [TC _]. apply nth_error_ext. intros n. rewrite !nth_error_map, nth_error_seq. destruct (Nat.ltb_spec n (length (t_cols L t))) as [Hl|Hl].
    - destruct (nth_error_ex _ n Hl) as [i E]. rewrite E. cbn [option_map]. now rewrite (proj1 (TC n i E)).
    - rewrite (proj2 (nth_error_None _ _) Hl). reflexivity.
  Qed.
  Lemma ids_nodup ts : tables_ok L ts -> NoDup (map (ci_id L) (all_cols ts)).
  Proof.
    induction ts as [|t ts IH] using rev_ind; intros OK; [constructor|]. rewrite all_cols_app, map_app. unfold CompileSpec.all_cols at 2. cbn [map concat]. rewrite app_nil_r.
    assert (OK' : tables_ok L ts) by (intros n t' E; apply OK; rewrite nth_error_app1; [exact E|apply nth_error_Some; congruence]).
    destruct (OK (length ts) t) as [TI TO]; [rewrite nth_error_app2, Nat.sub_diag by lia; reflexivity|]. rewrite (ids_of_table t TO).
    assert (D : forall A (l l' : list A), NoDup l -> NoDup l' -> (forall x, In x l -> ~ In x l') -> NoDup (l ++ l')).
    { clear. intros A l l' H1 H2 H3. induction H1 as [|x l NI ND IH]; [exact H2|]. cbn [app]. constructor.
      - rewrite in_app_iff. intros [H|H]; [contradiction|]. apply (H3 x); [now left|exact H].
      - apply IH. intros y Hy. apply H3. now right. }
    apply D; [now apply IH| |].
    - apply FinFun.Injective_map_NoDup; [intros a b [= ->]; reflexivity|apply seq_NoDup].
    - intros c Hc Hc'. apply in_map_iff in Hc as (i & <- & Hi). apply in_map_iff in Hc' as (n & Ec & _). pose proof (info_in ts i OK' Hi) as E. unfold info_of in E. rewrite <- Ec in E. cbn [fst snd] in E.
      rewrite TI in E. rewrite (proj2 (nth_error_None ts (length ts))) in E by lia. discriminate.
  Qed.

  Notation flushes_at := (CompileSpec.flushes_at L).
  Notation exponents_at := (CompileSpec.exponents_at L).
  Notation constraints_at := (CompileSpec.constraints_at L).

  Lemma constraints_app lk ts ts' tcs tcs' : constraints_at lk ts tcs -> constraints_at lk ts' tcs' -> constraints_at lk (ts ++ ts') (tcs ++ tcs').
  Proof. intros (a & -> & H) (b & -> & K). exists (a ++ b). split; [now rewrite concat_app|]. rewrite parts_of_app. now apply Forall2_app. Qed.
  Lemma flushes_app lk ts ts' : flushes_at lk (ts ++ ts') = flushes_at lk ts ++ flushes_at lk ts'.
  Proof. unfold CompileSpec.flushes_at. now rewrite parts_of_app, map_app, concat_app. Qed.
  Lemma exponents_app lk ts ts' : exponents_at lk (ts ++ ts') = exponents_at lk ts ++ exponents_at lk ts'.
  Proof. unfold CompileSpec.exponents_at. now rewrite parts_of_app, map_app, concat_app. Qed.

  Lemma compile_table_ok k done t : tables_ok L (done ++ [t]) -> (forall i, In i (t_cols L t) -> exists ts, compilable L ts i) ->
    inv L (c_oracles L k) (c_lookup L k) (sys_non_zero L (c_system L k)) (all_cols done) ->
    exists k', compile_table L k t = Ok k' /\ inv L (c_oracles L k') (c_lookup L k') (sys_non_zero L (c_system L k')) (all_cols (done ++ [t])) /\
      (exists x, c_lookup L k' = c_lookup L k ++ x) /\
      sys_specs L (c_system L k') = sys_specs L (c_system L k) ++ [t_spec L t] /\ sys_channel_count L (c_system L k') = sys_channel_count L (c_system L k) /\
      exists tcs, sys_tables L (c_system L k') = sys_tables L (c_system L k) ++ tcs /\
        forall lk, agrees (c_lookup L k') lk ->
          sys_flushes L (c_system L k') = sys_flushes L (c_system L k) ++ flushes_at lk [t] /\
          sys_exponents L (c_system L k') = sys_exponents L (c_system L k) ++ exponents_at lk [t] /\ constraints_at lk [t] tcs.
  Proof.
    intros OK CP IV. destruct (OK (length done) t) as [TI TO]; [rewrite nth_error_app2, Nat.sub_diag by lia; reflexivity|]. pose proof TO as [TC TP].
    assert (AC : all_cols (done ++ [t]) = all_cols done ++ t_cols L t) by (rewrite all_cols_app; unfold CompileSpec.all_cols at 2; cbn [map concat]; now rewrite app_nil_r).
    unfold compile_table. destruct (add_columns_ok L (t_id L t) (t_cols L t) _ _ _ _ IV) as (ss & m & nz & E & IV' & _ & EX).
    { rewrite <- AC. now apply ids_nodup. }
    { intros n i Hn. destruct (TC n i Hn) as (EI & CO & _). split; [rewrite EI; reflexivity|]. destruct (CP i (nth_error_In _ _ Hn)) as [ts' CC]. 
      assert (FROM : forall lv c, column_of L t n lv c -> In c (map (ci_id L) (all_cols done ++ firstn n (t_cols L t)))).
      { intros lv c (H1 & H2 & i' & H3 & _). apply in_map_iff. exists i'. split; [rewrite (proj1 (TC _ _ H3)), <- H1; now destruct c|]. apply in_or_app. right.
        apply (nth_error_In _ (snd c)). rewrite nth_error_firstn. rewrite (proj2 (Nat.ltb_lt _ _) H2). exact H3. }
      unfold column_ok in CO. unfold compilable in CC. destruct (ci_def L i) as [l|ks c|k' ix b|k' s size bits|k' pad s nz'|k' off b sv|k' d|data l|max|c|bits g l|bits g l]; cbn [def_ok through];
        (split; [try exact I; try exact CC|first [intros c' [<-|[]] | (intros c' []; fail) | idtac]]).
      - destruct CO as (_ & H1 & _ & H2). auto.
      - intros c' Hc'. destruct CO as (H1 & _). apply (FROM (ci_lv L i)), H1, Hc'.
      - destruct CO as (_ & _ & H). eauto.
      - destruct CO as (_ & H). eauto.
      - destruct CO as (_ & _ & H). eauto.
      - destruct CO as (_ & _ & H). eauto.
      - eauto.
      - split; [exact CC|]. exists (ci_lv L i). apply CO. }
    rewrite E. cbn [rbind].
    assert (REG : forall n, n < length (t_cols L t) -> In (t_id L t, n) (map fst m)).
    { intros n Hn. rewrite (inv_keys _ _ _ _ _ IV'). rewrite map_app. apply in_or_app. right. rewrite (ids_of_table t TO). apply in_map, in_seq. lia. }
    assert (PARTS : exists tss, forall lk, agrees m lk ->
      rmap (compile_part L m t) (parts_list L t) = Ok (map (fun px => (exps_in L lk t (fst px), map (flush_at L lk (t_id L t) (p_lv L (fst px))) (p_flushes L (fst px)), snd px)) (combine (parts_list L t) tss)) /\
      Forall2 (fun p x => tables_at L lk t p x) (parts_list L t) tss).
    { assert (H : forall p, In p (parts_list L t) -> exists lv, part_of L t lv = Some p) by apply part_in. clear -H TO REG. induction (parts_list L t) as [|p l IH].
      - exists []. intros lk _. split; [reflexivity|constructor].
      - destruct IH as (tss & IH); [intros; apply H; now right|]. destruct (H p (or_introl eq_refl)) as [lv Hp]. destruct (compile_part_ok L m t p lv TO Hp REG) as (tcs & Hc).
        exists (tcs :: tss). intros lk A. destruct (IH lk A) as [E1 F1]. destruct (Hc lk A) as [E2 F2]. split; [|constructor; assumption]. cbn [rmap combine map fst snd]. rewrite E2. cbn [rbind]. rewrite E1. reflexivity. }
    destruct PARTS as (tss & PARTS). set (lk0 := fun c => match lookup m c with Ok id => id | _ => 0 end).
    assert (A0 : agrees m lk0) by (intros c id E'; unfold lk0; now rewrite E'). destruct (PARTS lk0 A0) as [EP _].
    rewrite EP. cbn [rbind]. eexists. split; [reflexivity|]. cbn [c_oracles c_lookup c_system sys_non_zero sys_specs sys_channel_count sys_tables sys_flushes sys_exponents].
    rewrite AC. split; [exact IV'|]. split; [exact EX|]. split; [reflexivity|]. split; [reflexivity|]. eexists. split; [reflexivity|]. intros lk A. destruct (PARTS lk A) as [EP' FP]. rewrite EP in EP'. apply ok_inj in EP'.
    rewrite EP'. rewrite !map_map. cbn [fst snd]. unfold CompileSpec.flushes_at, CompileSpec.exponents_at, CompileSpec.constraints_at, CompileSpec.parts_of. cbn [map concat]. rewrite app_nil_r, !map_map. cbn [fst snd].
    assert (LEN : length (parts_list L t) = length tss) by (clear -FP; induction FP; cbn [length]; congruence).
    assert (CF : forall A (g : part L -> A), map (fun x => g (fst x)) (combine (parts_list L t) tss) = map g (parts_list L t)).
    { clear -LEN. intros A g. revert tss LEN. induction (parts_list L t) as [|p l IH]; intros [|x tss] LEN; try discriminate; [reflexivity|]. cbn [combine map fst]. rewrite IH by (injection LEN; auto). reflexivity. }
    assert (CS : map (fun x => snd x) (combine (parts_list L t) tss) = tss).
    { clear -LEN. revert tss LEN. induction (parts_list L t) as [|p l IH]; intros [|x tss] LEN; try discriminate; [reflexivity|]. cbn [combine map snd]. rewrite IH by (injection LEN; auto). reflexivity. }
    split; [f_equal; f_equal; apply (CF _ (fun p => map (flush_at L lk (t_id L t) (p_lv L p)) (p_flushes L p)))|]. split; [f_equal; f_equal; apply (CF _ (fun p => exps_in L lk t p))|].
    exists tss. rewrite CS. split; [reflexivity|]. clear -FP. induction FP; cbn [map]; constructor; assumption.
  Qed.

  Lemma compile_tables_ok ts : forall k done, tables_ok L (done ++ ts) -> (forall i, In i (all_cols ts) -> exists ts', compilable L ts' i) ->
    inv L (c_oracles L k) (c_lookup L k) (sys_non_zero L (c_system L k)) (all_cols done) ->
    exists k', compile_tables L k ts = Ok k' /\ inv L (c_oracles L k') (c_lookup L k') (sys_non_zero L (c_system L k')) (all_cols (done ++ ts)) /\
      (exists x, c_lookup L k' = c_lookup L k ++ x) /\
      sys_specs L (c_system L k') = sys_specs L (c_system L k) ++ map (t_spec L) ts /\ sys_channel_count L (c_system L k') = sys_channel_count L (c_system L k) /\
      exists tcs, sys_tables L (c_system L k') = sys_tables L (c_system L k) ++ tcs /\
        forall lk, agrees (c_lookup L k') lk ->
          sys_flushes L (c_system L k') = sys_flushes L (c_system L k) ++ flushes_at lk ts /\
          sys_exponents L (c_system L k') = sys_exponents L (c_system L k) ++ exponents_at lk ts /\ constraints_at lk ts tcs.
  Proof.
    induction ts as [|t ts IH]; intros k done OK CP IV; cbn [compile_tables].
    - exists k. split; [reflexivity|]. rewrite app_nil_r. split; [exact IV|]. split; [exists []; now rewrite app_nil_r|]. split; [now rewrite app_nil_r|]. split; [reflexivity|].
      exists []. split; [now rewrite app_nil_r|]. intros lk _. unfold CompileSpec.flushes_at, CompileSpec.exponents_at. cbn. rewrite !app_nil_r. split; [reflexivity|]. split; [reflexivity|]. exists []. split; [reflexivity|constructor].
    - assert (SP : done ++ t :: ts = (done ++ [t]) ++ ts) by now rewrite <- app_assoc.
      destruct (compile_table_ok k done t) as (k1 & E1 & IV1 & (x & EX) & SP1 & CC1 & tcs1 & T1 & H1); auto.
      { intros n t' E. apply OK. rewrite SP. rewrite nth_error_app1; [exact E|apply nth_error_Some; congruence]. }
      { intros i Hi. apply CP. unfold CompileSpec.all_cols. cbn [map concat]. apply in_or_app. now left. }
      rewrite E1. cbn [rbind]. destruct (IH k1 (done ++ [t])) as (k2 & E2 & IV2 & (y & EY) & SP2 & CC2 & tcs2 & T2 & H2); auto.
      { now rewrite <- SP. }
      { intros i Hi. apply CP. unfold CompileSpec.all_cols. cbn [map concat]. apply in_or_app. now right. }
      exists k2. split; [exact E2|]. rewrite SP. split; [exact IV2|]. split; [exists (x ++ y); rewrite EY, EX; now rewrite app_assoc|].
      split; [rewrite SP2, SP1, <- app_assoc; reflexivity|]. split; [congruence|]. exists (tcs1 ++ tcs2). split; [rewrite T2, T1; now rewrite app_assoc|].
      intros lk A. destruct (H2 lk A) as (F2 & X2 & C2). destruct (H1 lk) as (F1 & X1 & C1); [intros c id E; apply A; rewrite EY; now apply lookup_grow|].
      change (t :: ts) with ([t] ++ ts). rewrite flushes_app, exponents_app. rewrite F2, F1, X2, X1, <- !app_assoc. split; [reflexivity|]. split; [reflexivity|]. now apply constraints_app.
  Qed.

  Lemma compile_ok ts channels : tables_ok L ts -> all_compilable L ts ->
    exists k, compile L ts channels = Ok k /\ inv L (c_oracles L k) (c_lookup L k) (sys_non_zero L (c_system L k)) (all_cols ts) /\
      sys_specs L (c_system L k) = map (t_spec L) ts /\ sys_channel_count L (c_system L k) = channels /\
      forall lk, agrees (c_lookup L k) lk ->
          sys_flushes L (c_system L k) = flushes_at lk ts /\ sys_exponents L (c_system L k) = exponents_at lk ts /\ constraints_at lk ts (sys_tables L (c_system L k)).
  Proof.
    intros OK CP. unfold compile. destruct (compile_tables_ok ts (mkCompiled L [] [] (mkSystem L [] [] [] channels [] [])) [] OK) as (k & E & IV & _ & SP & CC & tcs & T & H).
    - intros i Hi. exists ts. eapply CP. now apply info_in.
    - constructor; cbn.
      + reflexivity.
      + intros i [].
      + discriminate.
      + intros id Hid. lia.
      + discriminate.
      + intros i j c [].
      + constructor.
    - exists k. split; [exact E|]. split; [exact IV|]. split; [exact SP|]. split; [exact CC|]. intros lk A. destruct (H lk A) as (H1 & H2 & H3). rewrite T. auto.
  Qed.
End System.
