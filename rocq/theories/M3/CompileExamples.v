(** C78: a table that meets the hypotheses of CompileProps.v, and what the builder does not check. *)
Require Import Coq.ZArith.ZArith Coq.NArith.NArith Coq.Arith.Arith Coq.Lists.List Coq.Bool.Bool Lia.
From Verif Require Import Base.Fld Base.Lists Base.Sums Math.MleSpec Math.MleModel Math.ArithModel Math.ArithProofs Math.ArithProps Field.TowerModel Field.TowerProofs Field.Examples
  Transparent.TransparentModel Transparent.TransparentProps Transparent.TowerBasisProps Transparent.ShiftModel Protocol.Proto Protocol.Soundness Ntt.NttSpec Ntt.SubspaceModel Ntt.SubspaceProps
  Sumcheck.SumcheckModel Sumcheck.SumcheckProps Sumcheck.ZerocheckModel Gkr.ExpModel Piop.MetaModel Piop.MetaProps
  Evalcheck.OracleModel Evalcheck.EvalModel Evalcheck.EvalSpec Evalcheck.OracleProps Evalcheck.EvalProofs Evalcheck.EvalExtend Evalcheck.SymbolicModel Evalcheck.SymbolicProps
  Evalcheck.GreedyModel Evalcheck.GreedyComp Evalcheck.GreedyStages Evalcheck.GreedyWork Evalcheck.GreedySets Cs.ChannelModel Cs.ChannelProps Cs.BalanceAlg Cs.FlushModel Cs.FlushProofs Cs.FlushProps
  Cs.VerifyModel Cs.VerifyExp Cs.VerifyZero Cs.VerifyProps Cs.TotalModel Cs.TotalProps
  M3.CompileModel M3.CompileSpec M3.RemapProofs M3.BuilderProofs M3.CompileProofs M3.TranslateProofs M3.SystemProofs M3.CellProofs M3.EncodeProofs M3.CompileProps.
Import ListNotations.
Local Close Scope N_scope.
Local Close Scope Z_scope.
Local Open Scope nat_scope.
Local Opaque usize_bits.

(** ** A table with columns of most kinds *)
Definition ok_table (r : res (hcol * tbl 2)) : hcol * tbl 2 := match r with Ok x => x | _ => (mkCol (0, 0) 0 0 0, table_new 2 0) end.
Definition h_ (n pidx level lv : nat) : hcol := mkCol (0, n) pidx level lv.
Definition x_ (h : hcol) : ex 2 := col_expr 2 h.
Definition op_ (op : circuit X16 -> circuit X16 -> circuit X16) (a b : hcol) : ex 2 := mkEx 2 0 (op (cvar (h_pidx a)) (cvar (h_pidx b))).

Definition t0 : tbl 2 := mkTbl 2 0 [] PowerOfTwo [].
Definition t1 := snd (add_committed 2 t0 0 2).
Definition t2 := snd (ok_table (add_shifted 2 t1 (h_ 0 0 0 2) 2 1 LogicalLeft)).
Definition t3 := snd (ok_table (add_packed 2 t2 (h_ 0 0 0 2) 2 0)).
Definition t4 := snd (ok_table (add_selected 2 t3 (h_ 0 0 0 2) 3)).
Definition t5 := snd (ok_table (add_selected_block 2 t4 (h_ 0 0 0 2) 1 1)).
Definition t6 := snd (ok_table (add_zero_pad 2 t5 (h_ 3 1 0 0) 1 0)).
Definition t7 := snd (add_constant 2 t6 0 1 [f1; f0]).
Definition t8 := snd (ok_table (add_structured 2 t7 2 2)).
Definition t9 := snd (ok_table (add_computed 2 t8 0 1 (op_ cadd (h_ 4 0 0 1) (h_ 5 1 0 1)))).
Definition t10 := snd (ok_table (add_computed 2 t9 0 1 (op_ cmul (h_ 4 0 0 1) (h_ 5 1 0 1)))).
Definition t11 := snd (ok_table (add_static_exp 2 t10 [h_ 3 1 0 0] (el 2) 2)).
Definition t12 := match assert_nonzero 2 t11 (h_ 2 0 2 0) with Ok t => t | _ => t11 end.
Definition t13 := match flush_with_opts 2 t12 Push 0 [h_ 2 0 2 0; h_ 7 2 2 0] 1 [h_ 3 1 0 0] with Ok t => t | _ => t12 end.

Definition hs13 : list hcol :=
  [h_ 10 3 2 0; h_ 9 4 0 1; h_ 8 3 0 1; h_ 7 2 2 0; h_ 6 2 0 1; h_ 5 1 0 1; h_ 4 0 0 1; h_ 3 1 0 0; h_ 2 0 2 0; h_ 1 1 0 2; h_ 0 0 0 2].

Fact built13 : built 2 0 t13 hs13.
Proof.
  unfold hs13.
  eapply b_flush with (t := t12) (dir := Push) (ch := 0) (cs := [h_ 2 0 2 0; h_ 7 2 2 0]) (mult := 1%N) (sels := [h_ 3 1 0 0]); [|intros c [[<-|[<-|[]]]|[<-|[]]]; (split; [cbn [In]; tauto|reflexivity])|vm_compute; reflexivity].
  eapply b_nonzero with (t := t11) (c := h_ 2 0 2 0); [|cbn [In]; tauto|vm_compute; reflexivity].
  eapply b_static with (t := t10) (bits := [h_ 3 1 0 0]) (base := el 2) (level := 2); [|intros b [<-|[]]; split; [cbn [In]; tauto|reflexivity]|vm_compute; reflexivity].
  eapply b_computed with (t := t9) (e := op_ cmul (h_ 4 0 0 1) (h_ 5 1 0 1)) (level := 0) (lv := 1); [| |vm_compute; reflexivity].
  2: { eapply (eo_op 2 _ _ cmul); [cbn [In]; tauto|apply eo_col with (h := h_ 4 0 0 1); [cbn [In]; tauto|reflexivity]|apply eo_col with (h := h_ 5 1 0 1); [cbn [In]; tauto|reflexivity]|reflexivity]. }
  eapply b_computed with (t := t8) (e := op_ cadd (h_ 4 0 0 1) (h_ 5 1 0 1)) (level := 0) (lv := 1); [| |vm_compute; reflexivity].
  2: { eapply (eo_op 2 _ _ cadd); [cbn [In]; tauto|apply eo_col with (h := h_ 4 0 0 1); [cbn [In]; tauto|reflexivity]|apply eo_col with (h := h_ 5 1 0 1); [cbn [In]; tauto|reflexivity]|reflexivity]. }
  eapply b_structured with (t := t7) (level := 2) (max := 2); [|vm_compute; reflexivity].
  eapply b_constant with (t := t6) (level := 0) (lv := 1) (data := [f1; f0]); [|reflexivity|vm_compute; reflexivity].
  eapply b_pad with (t := t5) (c := h_ 3 1 0 0) (lv := 1) (nz := 0); [|cbn [In]; tauto|vm_compute; reflexivity].
  eapply b_block with (t := t4) (c := h_ 0 0 0 2) (lv := 1) (ix := 1); [|cbn [In]; tauto|vm_compute; reflexivity].
  eapply b_selected with (t := t3) (c := h_ 0 0 0 2) (ix := 3); [|cbn [In]; tauto|vm_compute; reflexivity].
  eapply b_packed with (t := t2) (c := h_ 0 0 0 2) (level := 2) (lv := 0); [|cbn [In]; tauto|vm_compute; reflexivity].
  eapply b_shifted with (t := t1) (c := h_ 0 0 0 2) (b := 2) (o := 1) (sv := LogicalLeft); [|cbn [In]; tauto|vm_compute; reflexivity].
  eapply b_committed with (t := t0) (level := 0) (lv := 2); [|vm_compute; reflexivity].
  eapply b_power_of_two; [apply b_new|reflexivity].
Qed.

(** The cells: the nibble of row [r] is [5 + 6 r]. *)
Definition nib (r j : nat) : X16 := if N.testbit (N.of_nat (5 + 6 * r)) (N.of_nat j) then f1 else f0.
Definition sel13 (r : nat) : X16 := nib r 3.
Definition blk13 (r j : nat) : X16 := nib r (2 + j).
Definition pad13 (r j : nat) : X16 := if j =? 0 then sel13 r else f0.
Definition w13 : cells 2 := fun c r j =>
  match snd c with
  | 0 => nib r j
  | 1 => if 1 <=? j then nib r (j - 1) else f0
  | 2 => el (N.of_nat (5 + 6 * r))
  | 3 => sel13 r
  | 4 => blk13 r j
  | 5 => pad13 r j
  | 6 => if j =? 0 then f1 else f0
  | 7 => el (N.of_nat r)
  | 8 => fadd (blk13 r j) (pad13 r j)
  | 9 => fmul (blk13 r j) (pad13 r j)
  | _ => if feqb (sel13 r) f0 then f1 else el 2
  end.

Fact tables13 : tables_ok 2 [t13].
Proof. intros [|[|n]] t E; try discriminate. injection E as <-. destruct (builder_correct 2 0 t13 hs13 built13) as (H1 & H2 & _). auto. Qed.

Fact compilable13 : all_compilable 2 [t13].
Proof.
  intros [ct cn] i E. destruct ct as [|[|ct]]; try discriminate E.
  do 11 (destruct cn as [|cn]; [vm_compute in E; injection E as <-; unfold compilable; cbn [ci_def]; try exact I; try (cbn; lia);
    (apply exact_here with (i := mkInfo 2 (0, 0) (CdCommitted 2 0) 0 2 false); [reflexivity|exact I])|]).
  destruct cn; discriminate E.
Qed.

Fact sizes13 : sizes_fit 2 [t13] [2].
Proof.
  split; [reflexivity|]. intros [ct cn] i max E ED. destruct ct as [|[|ct]]; try discriminate E.
  do 11 (destruct cn as [|cn]; [vm_compute in E; injection E as <-; cbn [ci_def] in ED; try discriminate ED; injection ED as <-; cbn; lia|]). destruct cn; discriminate E.
Qed.

Fact cells13 : cells_hold 2 [t13] [2] w13.
Proof.
  intros [ct cn] i r j E R Hr Hj. destruct ct as [|[|ct]]; try discriminate E. change (log2_ceil (rows_of [2] (0, cn))) with 1 in *.
  do 11 (destruct cn as [|cn]; [vm_compute in E; injection E as <-; cbn [ci_lv] in Hj;
    do 2 (destruct r as [|r]; [do 4 (destruct j as [|j]; [try exact I; try (exfalso; cbn in Hj; lia); unfold cell; cbn [ci_def ci_id]; try exact I; vm_compute; reflexivity|]); exfalso; cbn in Hj; lia|]); exfalso; cbn in Hr; lia|]).
  destruct cn; discriminate E.
Qed.

(** Compilation and the encoding of the cells. *)
Fact compile13 : exists k os V, compile 2 [t13] 1 = Ok k /\ instantiate 2 (c_oracles 2 k) [2] = Ok os /\ length os = 12 /\ consistent os V /\
  (forall c i r j, info_of 2 [t13] c = Some i -> j < 2 ^ ci_lv 2 i -> view 2 (oracle_of 2 k) [t13] V c r j = w13 c r j) /\
  map (fun n => oracle_of 2 k (0, n)) (seq 0 11) = [0; 1; 2; 3; 4; 5; 7; 8; 9; 10; 11] /\
  length (sys_tables 2 (c_system 2 k)) = 1 /\ length (sys_exponents 2 (c_system 2 k)) = 1 /\ sys_non_zero 2 (c_system 2 k) = [2].
Proof.
  destruct (compile_correct 2 [t13] 1 tables13 compilable13) as (k & EK & _).
  destruct (compile_cells 2 [t13] 1 k [2] tables13 compilable13 EK sizes13) as (os & EI & _ & H). destruct (H w13 cells13) as (V & CV & HV).
  exists k, os, V. split; [exact EK|]. split; [exact EI|].
  assert (X : match compile 2 [t13] 1 with Ok k => (length (c_oracles 2 k), (map (fun n => oracle_of 2 k (0, n)) (seq 0 11), (length (sys_tables 2 (c_system 2 k)), (length (sys_exponents 2 (c_system 2 k)), sys_non_zero 2 (c_system 2 k))))) | _ => (0, ([], (0, (0, [])))) end
    = (12, ([0; 1; 2; 3; 4; 5; 7; 8; 9; 10; 11], (1, (1, [2]))))) by (vm_compute; reflexivity).
  rewrite EK in X. apply pair_equal_spec in X as [X1 X]. apply pair_equal_spec in X as [X2 X]. apply pair_equal_spec in X as [X3 X]. apply pair_equal_spec in X as [X4 X5].
  split; [|exact (conj CV (conj HV (conj X2 (conj X3 (conj X4 X5)))))].
  destruct (instantiate_correct 2 [2] (c_oracles 2 k)) as (os' & E' & EL & _); [|rewrite EI in E'; apply ok_inj in E'; subst os'; now rewrite EL].
  destruct (compile_ok 2 [t13] 1 tables13 compilable13) as (k' & E' & IV & _). rewrite EK in E'. apply ok_inj in E'. subst k'. exact (encode_shapes 2 [t13] _ _ _ _ [2] tables13 compilable13 IV (oracle_agrees 2 k) sizes13).
Qed.

(* -------------------------------------------------------------------- *)
(** ** Soundness: a table with an assertion of each kind

    The columns are those of [os16] and [V16]; the product of the columns is asserted to vanish, the second column not to, and the
    first column is pushed where the second is one. *)
Definition m1 : tbl 2 := snd (add_committed 2 (table_new 2 0) 2 0).
Definition m2 : tbl 2 := snd (add_committed 2 m1 0 0).
Definition m3 : tbl 2 := assert_zero 2 m2 0 (mkEx 2 0 (cmul (cvar 0) (cvar 1))).
Definition m4 : tbl 2 := match flush_with_opts 2 m3 Push 0 [h_ 0 0 2 0] 1 [h_ 1 1 0 0] with Ok t => t | _ => m3 end.
Definition m5 : tbl 2 := match assert_nonzero 2 m4 (h_ 1 1 0 0) with Ok t => t | _ => m4 end.
Definition hs5 : list hcol := [h_ 1 1 0 0; h_ 0 0 2 0].

Fact built5 : built 2 0 m5 hs5.
Proof.
  unfold hs5.
  eapply b_nonzero with (t := m4) (c := h_ 1 1 0 0); [|cbn [In]; tauto|vm_compute; reflexivity].
  eapply b_flush with (t := m3) (dir := Push) (ch := 0) (cs := [h_ 0 0 2 0]) (mult := 1%N) (sels := [h_ 1 1 0 0]); [|intros c [[<-|[]]|[<-|[]]]; (split; [cbn [In]; tauto|reflexivity])|vm_compute; reflexivity].
  assert (B2 : built 2 0 m2 [h_ 1 1 0 0; h_ 0 0 2 0]).
  { eapply b_committed with (t := m1) (level := 0) (lv := 0); [|vm_compute; reflexivity]. eapply b_committed with (t := table_new 2 0) (level := 2) (lv := 0); [|vm_compute; reflexivity]. apply b_new. }
  apply b_zero with (t := m2) (lv := 0) (e := mkEx 2 0 (cmul (cvar 0) (cvar 1))); [exact B2|].
  eapply (eo_op 2 _ _ cmul); [cbn [In]; tauto|apply eo_col with (h := h_ 0 0 2 0); [cbn [In]; tauto|reflexivity]|apply eo_col with (h := h_ 1 1 0 0); [cbn [In]; tauto|reflexivity]|reflexivity].
Qed.

Fact tables5 : forall id t, nth_error [m5] id = Some t -> exists hs, built 2 id t hs.
Proof. intros [|[|id]] t E; try discriminate. injection E as <-. exists hs5. exact built5. Qed.
Fact compilable5 : all_compilable 2 [m5].
Proof.
  intros [ct cn] i E. destruct ct as [|[|ct]]; try discriminate E.
  do 2 (destruct cn as [|cn]; [vm_compute in E; injection E as <-; exact I|]). destruct cn; discriminate E.
Qed.
Fact sizes5 : sizes_fit 2 [m5] [3].
Proof.
  split; [reflexivity|]. intros [ct cn] i max E ED. destruct ct as [|[|ct]]; try discriminate E.
  do 2 (destruct cn as [|cn]; [vm_compute in E; injection E as <-; discriminate ED|]). destruct cn; discriminate E.
Qed.
Fact verifiable5 : verifiable 2 3 [m5].
Proof.
  split; [|split].
  - intros t p z H Hz. vm_compute in H. destruct H as [H|[]]. injection H as <- <-. destruct Hz as [<-|[]].
    intros pos n c k ER EK. destruct (remap_bivariate 2 pos c ER n k EK). split; auto. lia.
  - intros t p f H Hf. vm_compute in H. destruct H as [H|[]]. injection H as <- <-. destruct Hf as [<-|[]]. cbn. lia.
  - intros i H. vm_compute in H. destruct H as [<-|[<-|[]]]; exact I.
Qed.

Definition part5 : part 2 := mkPart 2 0 [mkTf [(0, 0)] 0 Push 1%N [(0, 1)]] [(0, 0); (0, 1)] [cmul (cvar 0) (cvar 1)].
Definition compiled5 : compiled 2 :=
  mkCompiled 2 [mkSym 0 0 2 SymCommitted; mkSym 0 0 0 SymCommitted] [((0, 0), 0); ((0, 1), 1)]
    (mkSystem 2 [mkTc 2 0 0 [0; 1] [(cmul (cvar 0) (cvar 1), None)]] [mkFlush X16 0 0 [Oracle X16 0] 0 Push [1] 1%N] [1] 1 [] [Arbitrary]).
Lemma view5 c r : view 2 (oracle_of 2 compiled5) [m5] V16 (0, c) r 0 = V16 (oracle_of 2 compiled5 (0, c)) r.
Proof.
  unfold view. assert (E : lv_of 2 [m5] (0, c) = 0); [|now rewrite E, Nat.mul_1_r, Nat.add_0_r].
  do 2 (destruct c as [|c]; [reflexivity|]). destruct c; reflexivity.
Qed.
Fact m3_soundness_nonvacuous : let k := compiled5 in compile 2 [m5] 1 = Ok k /\ instantiate 2 (c_oracles 2 k) [3] = Ok os16 /\ consistent os16 V16 /\
  let w := view 2 (oracle_of 2 k) [m5] V16 in let bs := [bd16 Pull [el 4]] in
  let broken := broken_tables 2 3 (tower_basis_checked 2) 4 [m5] [3] bs w os16 (c_system 2 k) in
  selectors_boolean 2 [m5] [3] w /\ message_holds 2 [0; 2] os16 W16 V16 /\
  map (fun e => map bits (ev_values X16 e)) (table_events 2 [m5] [3] bs w) = [[4]; [4]; [6]]%N /\
  (exists e, broken e /\ e = zero_error 2 3 (map (sized 2 [3]) (live_tables 2 (c_system 2 k) [3])) 4) /\
  (exists e, broken e /\ e = 2 + gpa_error 2 os16 (sys_flushes 2 (c_system 2 k)) (live_non_zero 2 os16 (c_system 2 k)) [3]) /\
  (exists e, broken e /\ e = gpa_error 2 os16 (sys_flushes 2 (c_system 2 k)) (live_non_zero 2 os16 (c_system 2 k)) [3]).
Proof.
  cbv zeta. split; [reflexivity|]. split; [reflexivity|]. destruct phase_ok_nonvacuous as (_ & CO & _). split; [exact CO|].
  set (w := view _ _ _ _).
  destruct violations_nonvacuous as (_ & _ & _ & B1 & B2 & _).
  split.
  { intros t p f c r j H Hf Hc _ _ Hj. vm_compute in H. destruct H as [H|[]]. injection H as <- <-. destruct Hf as [<-|[]]. destruct Hc as [<-|[]]. cbn in Hj. replace j with 0 by lia.
    unfold w. rewrite view5. change (oracle_of 2 compiled5 (0, 1)) with 1. unfold V16. cbn [Nat.eqb]. destruct (r =? 1); auto. }
  split; [exact (proj1 message_nonvacuous)|]. split; [vm_compute; reflexivity|].
  split; [eexists; split; [|reflexivity]|split].
  - eapply (broken_zero 2 3 _ _ _ _ _ _ _ _ m5 part5 (cmul (cvar 0) (cvar 1)) 0 0); [exact B1|exact B2| |left; reflexivity|left; reflexivity|discriminate|cbn; lia|cbn; lia|reflexivity|intros E; apply (f_equal bits) in E; vm_compute in E; discriminate].
    apply Nat.le_trans with (2 ^ 4); [cbn; lia|]. apply Nat.pow_le_mono_r; [lia|]. Transparent usize_bits. unfold usize_bits. lia.
  - exists (3 * (1 - 1) + (Nat.max 2 1 + gpa_error 2 os16 (sys_flushes 2 (c_system 2 compiled5)) (live_non_zero 2 os16 (c_system 2 compiled5)) [3])). split; [|cbn; lia].
    apply (broken_balance 2 3 (tower_basis_checked 2) 4 [m5] [3] [bd16 Pull [el 4]] w os16 (c_system 2 compiled5) m5 part5 (mkTf [(0, 0)] 0 Push 1%N [(0, 1)]) [el 6] 1).
    + left. reflexivity.
    + left. reflexivity.
    + discriminate.
    + intros e H _. assert (X : map (fun e => length (ev_values X16 e)) (table_events 2 [m5] [3] [bd16 Pull [el 4]] w) = [1; 1; 1]) by (vm_compute; reflexivity).
      apply (in_map (fun e => length (ev_values X16 e))) in H. rewrite X in H. destruct H as [H|[H|[H|[]]]]; symmetry; exact H.
    + vm_compute. discriminate.
  - eexists. split; [|reflexivity]. eapply (broken_nonzero 2 3 _ _ _ _ _ _ _ _ (0, 1) _ 1 0); [reflexivity|reflexivity|discriminate|cbn; lia|cbn; lia|reflexivity].
Qed.

(* -------------------------------------------------------------------- *)
(** ** What the builder does not check *)

(** A computed column of two columns of bits, declared to hold elements of level 1 (which bits are), and packed in pairs to level 2.
    The oracle of the computed column has level 0, so the oracle of the packed column combines the pairs with the basis of level 0
    over the bits instead of the basis of level 1: with [x0 = (0, 1)] and [x1 = (0, 0)] its value is not what the type says. *)
Definition q1 : tbl 2 := snd (add_committed 2 t0 0 1).
Definition q2 : tbl 2 := snd (add_committed 2 q1 0 1).
Definition q3 := snd (ok_table (add_computed 2 q2 1 1 (op_ cadd (h_ 0 0 0 1) (h_ 1 1 0 1)))).
Definition q4 := snd (ok_table (add_packed 2 q3 (h_ 2 2 1 1) 2 0)).
Definition hs_q : list hcol := [h_ 3 0 2 0; h_ 2 2 1 1; h_ 1 1 0 1; h_ 0 0 0 1].
Definition osq : oset 2 :=
  [Some (mkOracle 1 0 Committed); Some (mkOracle 1 0 Committed); Some (mkOracle 1 0 (LinearCombination 1 f0 [(0, f1); (1, f1)])); Some (mkOracle 0 1 (Packed 2 1))].
Definition Vq : values 2 := fun id x => match id with 0 | 2 => if x =? 1 then f1 else f0 | 1 => f0 | _ => dec 2 2 end.
Definition kq : res (list nat * res (oset 2)) := match compile 2 [q4] 0 with Ok k => Ok (map (fun n => oracle_of 2 k (0, n)) (seq 0 4), instantiate 2 (c_oracles 2 k) [1]) | _ => Err end.

Theorem packed_level_refuted :
  built 2 0 q4 hs_q /\ kq = Ok ([0; 1; 2; 3], Ok osq) /\ consistent osq Vq /\
  Vq 3 0 <> sumn (2 ^ (2 - 1)) (fun e => fmul (basis_product 2 1 e) (Vq 2 e)).
Proof.
  split; [|split; [|split]].
  - unfold hs_q. eapply b_packed with (t := q3) (c := h_ 2 2 1 1) (level := 2) (lv := 0); [|cbn [In]; tauto|vm_compute; reflexivity].
    eapply b_computed with (t := q2) (e := op_ cadd (h_ 0 0 0 1) (h_ 1 1 0 1)) (level := 1) (lv := 1); [| |vm_compute; reflexivity].
    2: { eapply (eo_op 2 _ _ cadd); [cbn [In]; tauto|apply eo_col with (h := h_ 0 0 0 1); [cbn [In]; tauto|reflexivity]|apply eo_col with (h := h_ 1 1 0 1); [cbn [In]; tauto|reflexivity]|reflexivity]. }
    eapply b_committed with (t := q1) (level := 0) (lv := 1); [|vm_compute; reflexivity]. eapply b_committed with (t := t0) (level := 0) (lv := 1); [|vm_compute; reflexivity].
    eapply b_power_of_two; [apply b_new|reflexivity].
  - reflexivity.
  - intros id o E. destruct id as [|[|[|[|id]]]]; [| | | |destruct id; discriminate]; cbn [nth_error osq] in E; injection E as <-; cbn [o_variant o_nvars o_level defined_at]; intros x Hx; try exact I.
    + destruct x as [|[|x]]; [vm_compute; reflexivity|vm_compute; reflexivity|cbn in Hx; lia].
    + intros inner Ei. injection Ei as <-. destruct x as [|x]; [vm_compute; reflexivity|cbn in Hx; lia].
  - vm_compute. discriminate.
Qed.

(** A shift by nothing, or by the whole block, is accepted by the builder, and then compilation fails. *)
Theorem shift_offset_refuted : forall sv offset, In offset [0; 2] -> exists h t,
  add_shifted 2 q1 (h_ 0 0 0 1) 1 offset sv = Ok (h, t) /\ built 2 0 t [h; h_ 0 0 0 1] /\ compile 2 [t] 0 = Err.
Proof.
  intros sv offset H. eexists. eexists. split; [destruct H as [<-|[<-|[]]]; reflexivity|]. split.
  - eapply b_shifted with (t := q1) (c := h_ 0 0 0 1) (b := 1) (o := offset) (sv := sv); [|cbn [In]; tauto|destruct H as [<-|[<-|[]]]; reflexivity].
    eapply b_committed with (t := t0) (level := 0) (lv := 1); [|vm_compute; reflexivity]. eapply b_power_of_two; [apply b_new|reflexivity].
  - destruct H as [<-|[<-|[]]], sv; reflexivity.
Qed.

(** The index of a block is not checked: blocks past the end are blocks at its remainder. *)
Theorem block_index_refuted : exists h t, add_selected_block 2 t1 (h_ 0 0 0 2) 1 5 = Ok (h, t) /\ 2 ^ (2 - 1) <= 5 /\
  forall n w r, cell 2 [t] n w (nth 1 (t_cols 2 t) (mkInfo 2 (0, 0) (CdCommitted 2 0) 0 0 false)) r 0 <-> w (h_id h) r 0 = w (0, 0) r 2.
Proof.
  eexists. eexists. split; [reflexivity|]. split; [cbn; lia|]. intros n w r. unfold cell. cbv zeta. cbn [t_cols nth ci_def ci_id h_id snd]. change (w (0, 1) r 0 = w (0, 0) r (0 + 2 ^ 1 * (5 mod 2 ^ 1)) <-> w (0, 1) r 0 = w (0, 0) r 2). tauto.
Qed.

(** Nor is the table of an expression: an assertion about the first column of another table is taken for one about the first
    column of this table. *)
Theorem foreign_expression_refuted L (t : tbl L) lv (h : hcol) :
  let own := mkCol (t_id L t, snd (h_id h)) (h_pidx h) (h_level h) (h_lv h) in
  assert_zero L t lv (col_expr L h) = assert_zero L t lv (col_expr L own) /\
  forall level, add_computed L t level lv (col_expr L h) = add_computed L t level lv (col_expr L own).
Proof. split; reflexivity. Qed.
