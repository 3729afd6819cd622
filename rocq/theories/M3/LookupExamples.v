(** C80: the tables of the gadgets, and a system of tables that meets the hypotheses of LookupProps.v and LookupComplete.v. *)
Require Import Coq.ZArith.ZArith Coq.NArith.NArith Coq.Arith.Arith Coq.Lists.List Coq.Bool.Bool Lia Coq.Sorting.Permutation.
From Verif Require Import Base.Fld Base.Lists Base.Sums Math.MleSpec Math.MleModel Math.ArithModel Math.ArithProofs Math.ArithProps Field.TowerModel Field.TowerProofs Field.Examples
  Transparent.TransparentModel Transparent.TransparentProps Transparent.TowerBasisProps Transparent.ShiftModel Sumcheck.ZerocheckModel Sumcheck.ZerocheckProps Gkr.ExpModel
  Evalcheck.OracleModel Evalcheck.EvalSpec Evalcheck.EvalProofs Cs.ChannelModel Cs.ChannelProps Cs.FlushModel Cs.FlushProofs
  M3.CompileModel M3.CompileSpec M3.RemapProofs M3.BuilderProofs M3.SystemProofs M3.CellProofs M3.CompileProps M3.LookupModel M3.LookupBits M3.LookupProps M3.LookupComplete.
Import ListNotations.
Local Close Scope N_scope.
Local Close Scope Z_scope.
Local Open Scope nat_scope.

Section Gadgets.
  Variable L : nat.
  Notation F := (TF L).
  Notation tbl := (tbl L).
  Add Ring FringX : (f_ring F).

  (** ** Building *)
  Lemma bits_built n : forall t, table_ok L t -> let '(hs, t') := add_multiplicity_bits L t n in
    table_ok L t' /\ extends L t t' /\ (forall h, In h hs -> handle L t' h /\ h_lv h = 0).
  Proof.
    induction n as [|n IH]; intros t OK; cbn [add_multiplicity_bits]; [split; [exact OK|]; split; [split; auto|intros h []]|]. destruct (add_committed L t 0 0) as [h t1] eqn:E. destruct (new_committed L t 0 0 h t1 OK E) as (OK1 & H1 & X1).
    assert (LV : h_lv h = 0) by (unfold add_committed, new_column in E; injection E as <- <-; reflexivity). specialize (IH t1 OK1). destruct (add_multiplicity_bits L t1 n) as [hs t2]. destruct IH as (OK2 & X2 & HH). split; [exact OK2|].
    split; [split; [intros g Hg; now apply X2, X1|intros lv e He; now apply X2, X1]|]. intros g [<-|Hg]; [split; [now apply X2|exact LV]|auto].
  Qed.
  Lemma push_built chan cols bits : forall t i, table_ok L t -> (forall h, In h cols \/ In h bits -> handle L t h /\ h_lv h = 0) ->
    exists t', push_bits L t chan cols i bits = Ok t' /\ table_ok L t' /\ extends L t t'.
  Proof.
    induction bits as [|b bits IH]; intros t i OK HH; cbn [push_bits]; [exists t; split; [reflexivity|]; split; [exact OK|split; auto]|].
    assert (E : flush_with_opts L t Push chan cols (multiplicity i) [b] = Ok (add_flush L t 0 (mkTf (map h_id cols) chan Push (multiplicity i) [h_id b]))).
    { unfold flush_with_opts. rewrite !own_handles; [reflexivity|..]; intros h Hh; apply HH; [right; destruct Hh as [<-|[]]; now left|now left]. }
    rewrite E. cbn [rbind]. destruct (flush_opts_ok L t Push chan cols (multiplicity i) [b] _ OK ltac:(intros h [Hh|[<-|[]]]; apply HH; [now left|right; now left]) E) as [OK1 X1].
    destruct (IH _ (S i) OK1) as (t' & E' & OK2 & X2). { intros h Hh. assert (Hh' : In h cols \/ In h (b :: bits)) by (destruct Hh; [now left|right; now right]). destruct (HH h Hh') as [A B]. split; [now apply X1|exact B]. }
    exists t'. split; [exact E'|]. split; [exact OK2|]. split; [intros g Hg; now apply X2, X1|intros lv e He; now apply X2, X1].
  Qed.
  (** A lookup table can be made of every circuit. *)
  Theorem table_lookup_built t n level c chan perm m : table_ok L t -> t_spec L t = Arbitrary -> n_vars c = n ->
    exists g t', table_lookup_new L t n level c chan perm m = Ok (g, t') /\ table_ok L t' /\ extends L t t'.
  Proof.
    intros OK SP NV. unfold table_lookup_new, require_fixed_size. rewrite SP. cbn [rbind]. destruct (spec_ok L t (Fixed n) OK SP) as [OK1 X1]. set (t1 := mkTbl _ _ _ _ _) in *.
    destruct (add_fixed L t1 level c) as [[o t2]| |] eqn:EO; [|exfalso; unfold add_fixed in EO; cbn [t_spec t1] in EO; rewrite NV, Nat.eqb_refl in EO; discriminate..].
    destruct (new_fixed L t1 level c o t2 OK1 EO) as (OK2 & HO & X2). cbn [rbind]. assert (LO : h_lv o = 0) by (unfold add_fixed in EO; cbn [t_spec t1] in EO; rewrite NV, Nat.eqb_refl in EO; apply ok_inj in EO; unfold new_column in EO; injection EO as <- <-; reflexivity).
    destruct (add_committed L t2 level 0) as [s t3] eqn:ES. destruct (new_committed L t2 level 0 s t3 OK2 ES) as (OK3 & HS & X3). assert (LS : h_lv s = 0) by (unfold add_committed, new_column in ES; injection ES as <- <-; reflexivity).
    apply (proj1 X3) in HO. assert (E4 : flush_with_opts L t3 Push perm [o] 1 [] = Ok (add_flush L t3 0 (mkTf [h_id o] perm Push 1 []))) by (unfold flush_with_opts; rewrite own_handles by (intros h [<-|[]]; exact HO); reflexivity).
    rewrite E4. cbn [rbind]. destruct (flush_opts_ok L t3 Push perm [o] 1 [] _ OK3 ltac:(intros h [[<-|[]]|[]]; auto) E4) as [OK4 X4]. set (t4 := add_flush _ _ _ _) in *. apply (proj1 X4) in HO, HS.
    assert (E5 : flush_with_opts L t4 Pull perm [s] 1 [] = Ok (add_flush L t4 0 (mkTf [h_id s] perm Pull 1 []))) by (unfold flush_with_opts; rewrite own_handles by (intros h [<-|[]]; exact HS); reflexivity).
    rewrite E5. cbn [rbind]. destruct (flush_opts_ok L t4 Pull perm [s] 1 [] _ OK4 ltac:(intros h [[<-|[]]|[]]; auto) E5) as [OK5 X5]. set (t5 := add_flush _ t4 _ _) in *. apply (proj1 X5) in HS.
    unfold lookup_producer_new. pose proof (bits_built m t5 OK5) as B. destruct (add_multiplicity_bits L t5 m) as [hs t6]. destruct B as (OK6 & X6 & HB).
    destruct (push_built chan [s] hs t6 0 OK6) as (t7 & E7 & OK7 & X7). { intros h [[<-|[]]|Hh]; [split; [now apply X6|exact LS]|auto]. }
    rewrite E7. cbn [rbind]. eexists _, t7. split; [reflexivity|]. split; [exact OK7|]. split; [intros g Hg; now apply X7, X6, X5, X4, X3, X2, X1|intros lv e He; now apply X7, X6, X5, X4, X3, X2, X1].
  Qed.

  Lemma n_vars_fold (l : list (circuit F)) : forall c, n_vars (fold_left cadd l c) = fold_left Nat.max (map n_vars l) (n_vars c).
  Proof. induction l as [|a l IH]; intros c; [reflexivity|]. cbn [fold_left map]. now rewrite IH, n_vars_cadd. Qed.
  Lemma fold_max_bound l : forall a n, a <= n -> (forall x, In x l -> x <= n) -> (a = n \/ In n l) -> fold_left Nat.max l a = n.
  Proof.
    induction l as [|x l IH]; intros a n Ha Hl Hn; cbn [fold_left]; [destruct Hn as [|[]]; assumption|]. pose proof (Hl x (or_introl eq_refl)). apply IH; [lia|intros y Hy; apply Hl; now right|].
    destruct Hn as [->|[->|Hn]]; [left; lia|left; lia|now right].
  Qed.

  Section Limbs.
    Variable b : nat.
    Hypothesis HL : b + 2 <= L.
    Notation W := (2 ^ b).

    Lemma bitand_n_vars : n_vars (bitand_circuit L b) = 2 * W.
    Proof.
      assert (HW : 1 <= W) by (pose proof (Nat.pow_nonzero 2 b); lia). unfold bitand_circuit, csum. rewrite n_vars_fold. apply fold_max_bound; [cbn; lia|..].
      - intros x Hx. apply in_map_iff in Hx as (c & <- & Hc). apply in_flat_map in Hc as (i & Hi & Hc). apply in_seq in Hi. destruct Hc as [<-|[<-|[<-|[]]]]; rewrite !n_vars_cmul; cbn [n_vars cvar bit_const cconst map fold_right var_bound]; lia.
      - right. apply in_map_iff. exists (cmul (cvar (W - 1 + W)) (bit_const L (W - 1 + W))). split; [rewrite n_vars_cmul; cbn [n_vars cvar bit_const cconst map fold_right var_bound]; lia|].
        apply in_flat_map. exists (W - 1). split; [apply in_seq; lia|]. right. now left.
    Qed.
    Lemma carry_n_vars i : i <= W -> n_vars (carry_in_circuit L b i) = W + 1.
    Proof.
      intros Hi. unfold carry_in_circuit. assert (G : forall (l : list (circuit F)) c, n_vars c = W + 1 -> (forall x, In x l -> n_vars x <= W + 1) -> n_vars (fold_left cmul l c) = W + 1).
      { clear. induction l as [|a l IH]; intros c Hc H; [exact Hc|]. cbn [fold_left]. apply IH; [|intros x Hx; apply H; now right]. rewrite n_vars_cmul, Hc. specialize (H a (or_introl eq_refl)). lia. }
      apply G; [cbn; lia|]. intros x Hx. apply in_map_iff in Hx as (k & <- & Hk). apply in_seq in Hk. cbn [n_vars cvar map fold_right var_bound]. lia.
    Qed.
    Lemma incr_n_vars' : n_vars (incr_circuit L b) = W + 1.
    Proof.
      assert (HW : 1 <= W) by (pose proof (Nat.pow_nonzero 2 b); lia). unfold incr_circuit, csum. rewrite n_vars_fold. apply fold_max_bound; [cbn; lia|..].
      - intros x Hx. apply in_map_iff in Hx as (c & <- & Hc). apply in_app_or in Hc as [Hc|Hc].
        + apply in_flat_map in Hc as (i & Hi & Hc). apply in_seq in Hi. destruct Hc as [<-|[<-|[]]]; rewrite !n_vars_cmul, ?n_vars_cadd, ?carry_n_vars by lia; cbn [n_vars cvar bit_const cconst map fold_right var_bound]; lia.
        + destruct Hc as [<-|[<-|[]]]; rewrite n_vars_cmul, ?carry_n_vars by lia; cbn [n_vars cvar bit_const cconst map fold_right var_bound]; lia.
      - right. apply in_map_iff. exists (cmul (cvar W) (bit_const L (2 * W))). split; [rewrite n_vars_cmul; cbn [n_vars cvar bit_const cconst map fold_right var_bound]; lia|].
        apply in_or_app. right. now left.
    Qed.
    (** The tables of the gadgets can be built. *)
    Theorem bitand_lookup_built t chan perm m : table_ok L t -> t_spec L t = Arbitrary -> exists g t', bitand_lookup_new L b t chan perm m = Ok (g, t') /\ table_ok L t' /\ extends L t t'.
    Proof. intros OK SP. apply table_lookup_built; auto using bitand_n_vars. Qed.
    Theorem incr_lookup_built t chan perm m : table_ok L t -> t_spec L t = Arbitrary -> exists g t', incr_lookup_new L b t chan perm m = Ok (g, t') /\ table_ok L t' /\ extends L t t'.
    Proof. intros OK SP. apply table_lookup_built; auto using incr_n_vars'. Qed.

    (** ** Entries: the circuit of the table, the entries the prover fills in and the indices agree *)
    Theorem bitand_entries : entries_ok L (bitand_indexed L b) /\
      forall r, evaluate (bitand_circuit L b) (vertex (2 * W) r) = Some (fill_ordered L (bitand_indexed L b) r).
    Proof.
      split; [|intros r; destruct (bitand_table L b HL r) as [_ E]; rewrite E; unfold fill_ordered, bitand_indexed; cbn [il_index_to_entry]; rewrite (and_index L b HL); reflexivity].
      intros i Hi. unfold bitand_indexed in *. cbn [il_log_size il_index_to_entry il_entry_to_index] in *. rewrite (and_index L b HL). split; [reflexivity|]. now apply (and_index_of L b HL).
    Qed.
    Theorem incr_entries_table : entries_ok L (incr_indexed L b) /\
      forall r, evaluate (incr_circuit L b) (vertex (W + 1) r) = Some (fill_ordered L (incr_indexed L b) r).
    Proof.
      split; [|intros r; destruct (incr_table L b HL r) as [_ E]; rewrite E; unfold fill_ordered, incr_indexed; cbn [il_index_to_entry]; rewrite (incr_index L b HL); reflexivity].
      intros i Hi. unfold incr_indexed in *. cbn [il_log_size il_index_to_entry il_entry_to_index] in *. rewrite (incr_index L b HL). split; [reflexivity|]. now apply (incr_index_of L b HL).
    Qed.

    (** ** What the gadgets fill in is in the table and matches the computed column. *)
    Theorem bit_and_populate_correct size (in_a in_b : nat -> N) i : i < size -> (in_a i < 2 ^ N.of_nat W)%N -> (in_b i < 2 ^ N.of_nat W)%N ->
      let '(output, merged) := bit_and_populate b size in_a in_b i in
      output = N.land (in_a i) (in_b i) /\
      dec L merged = fadd (fadd (dec L (in_a i)) (fmul (dec L (in_b i)) (ext_basis L b 1))) (fmul (dec L output) (ext_basis L b 2)) /\
      exists k, k < 2 ^ (2 * W) /\ bitand_index_to_entry L b k = [dec L merged].
    Proof.
      intros Hi A B. apply limb_lt in A, B. unfold bit_and_populate. rewrite (proj2 (Nat.ltb_lt _ _) Hi). cbv zeta. assert (O : inr b (N.land (in_a i) (in_b i))) by now apply land_inr. rewrite (merge_and L b HL). split; [reflexivity|]. split; [apply dec_limbs3; auto using inr_S|].
      destruct (proj2 (and_entries L b HL _ _ _ A B O) eq_refl) as (k & Hk & E). exists k. split; [exact Hk|]. rewrite (and_index L b HL), E. reflexivity.
    Qed.
    Theorem incr_populate_correct (input : N) (carry_in : bool) : (input < 2 ^ N.of_nat W)%N ->
      let '(output, carry_out, merged) := incr_populate b input carry_in in
      (output < 2 ^ N.of_nat W)%N /\ (output + 2 ^ N.of_nat W * N.b2n carry_out = input + N.b2n carry_in)%N /\
      dec L merged = fadd (fadd (fadd (dec L input) (fmul (dec L output) (ext_basis L b 1))) (fmul (dec L (N.b2n carry_in)) (ext_basis L b 2))) (fmul (dec L (N.b2n carry_out)) (fmul (ext_basis L b 2) (ext_basis L 0 1))) /\
      exists k, k < 2 ^ (W + 1) /\ incr_index_to_entry L b k = [dec L merged].
    Proof.
      intros A. pose proof A as A'. apply limb_lt in A'. unfold incr_populate, overflowing_add. cbv zeta. set (s := (input + N.b2n carry_in)%N). set (co := N.leb (2 ^ N.of_nat W) s).
      assert (EO : N.land s (N.ones (N.of_nat W)) = lo b s) by (rewrite (nbits_W b); reflexivity). rewrite EO.
      assert (O : inr b (lo b s)) by apply lo_inr. split; [now apply limb_lt|]. assert (SUM : (lo b s + 2 ^ N.of_nat W * N.b2n co = input + N.b2n carry_in)%N) by (apply (incr_meets L b HL); auto). split; [exact SUM|].
      pose proof (merge_incr L b HL input carry_in (lo b s) co) as MI. unfold merge_incr_vals in MI. rewrite MI. clear MI. destruct (proj2 (incr_entries L b HL input carry_in (lo b s) co A' O) SUM) as (k & Hk & E).
      split; [|exists k; split; [exact Hk|]; rewrite (incr_index L b HL), E; reflexivity]. rewrite (dec_limbs3 L b HL _ _ _ A' O (pair_inr L b HL carry_in co)), (dec_pair L).
      assert (BF : forall v : bool, dec L (N.b2n v) = fb L v) by (intros [|]; [apply dec_1|apply dec_0]). rewrite !BF.
      ring.
    Qed.
  End Limbs.
End Gadgets.

(** [BitAnd::populate] writes one value for each row, although a cell may have several. *)
Definition bit_and_populate_claim : Prop := forall b size lv (in_a in_b : nat -> N) i, i < size * 2 ^ lv ->
  fst (bit_and_populate b size in_a in_b i) = N.land (in_a i) (in_b i).
Theorem bit_and_populate_refuted : ~ bit_and_populate_claim.
Proof. intros H. specialize (H 3 1 1 (fun _ => 5%N) (fun _ => 4%N) 1 ltac:(cbn; lia)). discriminate H. Qed.

(* -------------------------------------------------------------------- *)
(** ** Two tables: the conjunctions of bits and a reader of three rows *)
Definition made {A} (d : A) (r : res A) : A := match r with Ok x => x | _ => d end.
Definition no_col : hcol := mkCol (0, 0) 0 0 0.
Definition lk_made : table_lookup * tbl 2 := Eval vm_compute in made (mkTl no_col no_col [], table_new 2 0) (bitand_lookup_new 2 0 (table_new 2 0) 0 1 2).
Definition rd_x : hcol * tbl 2 := Eval vm_compute in add_committed 2 (table_new 2 1) 0 0.
Definition rd_y : hcol * tbl 2 := Eval vm_compute in add_committed 2 (snd rd_x) 0 0.
Definition rd_made : bit_and * tbl 2 := Eval vm_compute in made (mkAnd no_col no_col no_col no_col, table_new 2 1) (bit_and_new 2 0 (snd rd_y) 0 0 (fst rd_x) (fst rd_y)).
Definition lk_tables : list (tbl 2) := [snd lk_made; snd rd_made].
Definition lk_values : list (list (list N)) :=
  [[[0; 1; 2; 7]; [7; 2; 0; 1]; [0; 1; 0; 0]; [1; 0; 0; 0]]; [[1; 1; 0; 0]; [1; 1; 1; 0]; [1; 1; 0; 0]; [7; 7; 2; 0]]]%N.
Definition lk_w : cells 2 := fun c r _ => dec 2 (nth r (nth (snd c) (nth (fst c) lk_values []) []) 0%N).
Definition lk_rows : list (nat * N) := [(3, 2%N); (2, 1%N); (0, 0%N); (1, 0%N)].

Fact lk_new : bitand_lookup_new 2 0 (table_new 2 0) 0 1 2 = Ok lk_made.
Proof. vm_compute. reflexivity. Qed.
Fact rd_new : bit_and_new 2 0 (snd rd_y) 0 0 (fst rd_x) (fst rd_y) = Ok rd_made.
Proof. vm_compute. reflexivity. Qed.
Fact rd_start : table_ok 2 (snd rd_y) /\ handle 2 (snd rd_y) (fst rd_x) /\ handle 2 (snd rd_y) (fst rd_y) /\ h_lv (fst rd_x) = 0 /\ h_lv (fst rd_y) = 0.
Proof.
  destruct (builder_correct 2 1 (snd rd_y) [fst rd_y; fst rd_x]) as (H1 & _ & H3 & _).
  { eapply b_committed with (t := snd rd_x) (level := 0) (lv := 0); [|reflexivity]. eapply b_committed with (t := table_new 2 1) (level := 0) (lv := 0); [|reflexivity]. apply b_new. }
  split; [exact H1|]. split; [apply H3; cbn [In]; tauto|]. split; [apply H3; cbn [In]; tauto|]. split; reflexivity.
Qed.
Lemma made_ok {A B} (P : B -> Prop) (x : A * B) (r : res (A * B)) : r = Ok x -> (exists g t, r = Ok (g, t) /\ P t) -> P (snd x).
Proof. intros -> (g & t & E & H). apply ok_inj in E. now subst x. Qed.
Fact lk_id : t_id 2 (snd lk_made) = 0 /\ t_id 2 (snd rd_made) = 1.
Proof. vm_compute. auto. Qed.
Fact lk_ok0 : table_ok 2 (snd lk_made).
Proof.
  apply (made_ok (table_ok 2) lk_made _ lk_new). destruct (bitand_lookup_built 2 0 (le_n 2) (table_new 2 0) 0 1 2) as (g & t & E & OK & _); [destruct (builder_correct 2 0 (table_new 2 0) [] (b_new 2 0)); tauto|reflexivity|]. exists g, t. auto.
Qed.
Fact lk_ok1 : table_ok 2 (snd rd_made).
Proof.
  apply (made_ok (table_ok 2) rd_made _ rd_new). destruct rd_start as (H1 & H2 & H3 & H4 & H5). destruct (bit_and_made 2 0 (snd rd_y) 0 0 (fst rd_x) (fst rd_y) H1 H2 H3 H4 H5) as (g & t & E & OK & _). exists g, t. auto.
Qed.
Fact lk_ok : tables_ok 2 lk_tables.
Proof.
  assert (X : forall (t u : tbl 2) n, t_id 2 t = n -> table_ok 2 t -> Some t = Some u -> t_id 2 u = n /\ table_ok 2 u) by (intros t u n H1 H2 E; injection E as <-; auto).
  destruct lk_id as [I0 I1]. intros [|[|n]] t E; [apply (X _ _ _ I0 lk_ok0 E)|apply (X _ _ _ I1 lk_ok1 E)|destruct n; discriminate E].
Qed.
Fact lk_cells : cells_hold 2 lk_tables [4; 3] lk_w.
Proof.
  intros [ct cn] i r j E R Hr Hj. destruct ct as [|[|ct]]; [| |exfalso; destruct ct; vm_compute in E; discriminate E].
  all: do 4 (destruct cn as [|cn]; [vm_compute in E; injection E as <-; cbn [ci_lv] in Hj; destruct j as [|j]; [|exfalso; clear -Hj; vm_compute in Hj; lia];
    do 4 (destruct r as [|r]; [unfold cell; cbn [ci_def ci_id]; match goal with |- True => exact I | _ => vm_compute; reflexivity end|]); exfalso; clear -Hr; vm_compute in Hr; lia|]).
  all: exfalso; destruct cn; vm_compute in E; discriminate E.
Qed.
Fact lk_tally : tally 2 (bitand_indexed 2 0) lk_w 0 lk_tables [4; 3] [] = Ok [0; 0; 1; 2]%N.
Proof. vm_compute. reflexivity. Qed.
Fact lk_populate : exists bits, populate_bits 2 (map snd lk_rows) = Ok bits /\ map (bits 0) (seq 0 4) = [false; true; false; false] /\ map (bits 1) (seq 0 4) = [true; false; false; false].
Proof. eexists. split; [reflexivity|]. split; reflexivity. Qed.
Fact lk_reads : only_reads 2 lk_tables [] 0 0 1.
Proof.
  split; [|intros x []]. intros t p f H Hf HT. unfold parts_of, lk_tables in H. cbn [map concat] in H. apply in_app_or in H as [H|H].
  - exfalso. apply in_map_iff in H as (q & E & _). apply pair_equal_spec in E as [<- _]. apply HT. apply lk_id.
  - apply in_app_or in H as [H|[]]. apply in_map_iff in H as (q & E & Hq). apply pair_equal_spec in E as [<- <-]. assert (FL : map (fun q => p_flushes 2 q) (parts_list 2 (snd rd_made)) = [[mkTf [(1, 3)] 0 Pull 1 []]]) by (vm_compute; reflexivity).
    assert (IN : In (p_flushes 2 q) [[mkTf [(1, 3)] 0 Pull 1 []]]) by (rewrite <- FL; now apply in_map). destruct IN as [IN|[]]. rewrite <- IN in Hf. destruct Hf as [<-|[]]. cbn. repeat split; auto; lia.
Qed.
(** The channels balance, and the outputs are conjunctions. *)
Fact lk_balanced : balanced 2 0 (table_events 2 lk_tables [4; 3] [] lk_w) /\ balanced 2 1 (table_events 2 lk_tables [4; 3] [] lk_w).
Proof.
  destruct lk_populate as (bits & EB & B0 & B1).
  apply (lookup_complete 2 lk_tables [4; 3] [] lk_w (bitand_indexed 2 0) 0 2 (bitand_circuit 2 0) 0 1 2 (fst lk_made) (snd lk_made) [0; 0; 1; 2]%N lk_rows bits).
  - exact lk_ok.
  - vm_compute. reflexivity.
  - reflexivity.
  - reflexivity.
  - discriminate.
  - apply bitand_entries. lia.
  - exact lk_reads.
  - assert (X : map (ev_values X16) (pulled 2 0 (table_events 2 lk_tables [4; 3] [] lk_w)) = [bitand_index_to_entry 2 0 3; bitand_index_to_entry 2 0 3; bitand_index_to_entry 2 0 2]) by (vm_compute; reflexivity).
    intros e He. apply (in_map (ev_values X16)) in He. rewrite X in He. destruct He as [He|[He|[He|[]]]]; [exists 3|exists 3|exists 2]; (split; [cbn; lia|symmetry; exact He]).
  - vm_compute. reflexivity.
  - exact lk_tally.
  - change (combine (seq 0 (2 ^ il_log_size 2 (bitand_indexed 2 0))) [0; 0; 1; 2]%N) with [(0, 0%N); (1, 0%N); (2, 1%N); (3, 2%N)]. unfold lk_rows.
    apply (Permutation_trans (l' := [(2, 1%N); (3, 2%N); (0, 0%N); (1, 0%N)])); [apply perm_swap|]. apply (Permutation_app_comm [(2, 1%N); (3, 2%N)] [(0, 0%N); (1, 0%N)]).
  - exact EB.
  - intros r Hr. change (2 ^ il_log_size 2 (bitand_indexed 2 0)) with 4 in Hr. injection EB as <-.
    do 4 (destruct r as [|r]; [split; [vm_compute; reflexivity|]; split; [vm_compute; reflexivity|]; intros [|[|[|j]]] h E; vm_compute in E; try discriminate E; injection E as <-; vm_compute; reflexivity|]). lia.
Qed.
Fact lk_pushed : pushed_from 2 lk_tables [] 0 [h_id (tl_sorted (fst lk_made))] /\ pushed_from 2 lk_tables [] 1 [h_id (tl_ordered (fst lk_made))].
Proof.
  assert (X : forall t p f, In (t, p) (parts_of 2 lk_tables) -> In f (p_flushes 2 p) -> In f [mkTf [(0, 0)] 1 Push 1 []; mkTf [(0, 1)] 1 Pull 1 []; mkTf [(0, 1)] 0 Push 1 [(0, 2)]; mkTf [(0, 1)] 0 Push 2 [(0, 3)]; mkTf [(1, 3)] 0 Pull 1 []]).
  { intros t p f H Hf. assert (FL : flat_map (fun tp => p_flushes 2 (snd tp)) (parts_of 2 lk_tables) = [mkTf [(0, 0)] 1 Push 1 []; mkTf [(0, 1)] 1 Pull 1 []; mkTf [(0, 1)] 0 Push 1 [(0, 2)]; mkTf [(0, 1)] 0 Push 2 [(0, 3)]; mkTf [(1, 3)] 0 Pull 1 []]) by (vm_compute; reflexivity).
    rewrite <- FL. apply in_flat_map. exists (t, p). auto. }
  split; (split; [intros x []|]); intros t p f H Hf EC ED; specialize (X t p f H Hf); cbn [In] in X; repeat destruct X as [<-|X]; try discriminate EC; try discriminate ED; try reflexivity; destruct X.
Qed.
Fact lk_conjunctions r : r < 3 -> enc 2 (lk_w (h_id (an_output (fst rd_made))) r 0) = N.land (enc 2 (lk_w (1, 0) r 0)) (enc 2 (lk_w (1, 1) r 0)).
Proof.
  intros Hr. destruct rd_start as (H1 & H2 & H3 & H4 & H5). destruct lk_balanced as [B1 B2]. destruct lk_pushed as [P1 P2].
  assert (LM : forall n, n < 3 -> limb 2 0 (lk_w (1, n) r 0)).
  { intros n Hn. unfold limb. do 3 (destruct n as [|n]; [do 3 (destruct r as [|r]; [vm_compute; reflexivity|]); lia|]). lia. }
  apply (bit_and_sound 2 0 (le_n 2) lk_tables [4; 3] [] lk_w (table_new 2 0) 0 1 2 (fst lk_made) (snd lk_made) (snd lk_made) (snd rd_y) 0 (fst rd_x) (fst rd_y) (fst rd_made) (snd rd_made) (snd rd_made) r 0).
  1: exact lk_ok. 1: reflexivity. 1: exact lk_cells. 1: exact lk_new. 1: apply later_refl. 1: reflexivity. 1: exact H1. 1: exact H2. 1: exact H3. 1: exact H4. 1: exact H5. 1: exact rd_new. 1: apply later_refl. 1: reflexivity.
  1: exact P1. 1: exact P2. 1: exact B1. 1: exact B2. 1: exact Hr. 1: cbn; lia. 1: apply (LM 0); lia. 1: apply (LM 1); lia. apply (LM 2); lia.
Qed.

(** ** Increments of one bit *)
Definition ik_made : table_lookup * tbl 2 := Eval vm_compute in made (mkTl no_col no_col [], table_new 2 0) (incr_lookup_new 2 0 (table_new 2 0) 0 1 1).
Definition ir_x : hcol * tbl 2 := Eval vm_compute in add_committed 2 (table_new 2 1) 0 0.
Definition ir_c : hcol * tbl 2 := Eval vm_compute in add_committed 2 (snd ir_x) 0 0.
Definition ir_made : incr * tbl 2 := Eval vm_compute in made (mkIncr no_col no_col no_col no_col no_col, table_new 2 1) (incr_new 2 0 (snd ir_c) 0 (fst ir_x) (fst ir_c)).
Definition ik_tables : list (tbl 2) := [snd ik_made; snd ir_made].
Definition ik_values : list (list (list N)) :=
  [[[0; 3; 6; 13]; [13; 3; 0; 6]; [1; 1; 0; 0]]; [[1; 1]; [1; 0]; [0; 1]; [1; 0]; [13; 3]]]%N.
Definition ik_w : cells 2 := fun c r _ => dec 2 (nth r (nth (snd c) (nth (fst c) ik_values []) []) 0%N).
Definition ik_rows : list (nat * N) := [(3, 1%N); (1, 1%N); (0, 0%N); (2, 0%N)].

Fact ik_new : incr_lookup_new 2 0 (table_new 2 0) 0 1 1 = Ok ik_made.
Proof. vm_compute. reflexivity. Qed.
Fact ir_new : incr_new 2 0 (snd ir_c) 0 (fst ir_x) (fst ir_c) = Ok ir_made.
Proof. vm_compute. reflexivity. Qed.
Fact ir_start : table_ok 2 (snd ir_c) /\ handle 2 (snd ir_c) (fst ir_x) /\ handle 2 (snd ir_c) (fst ir_c) /\ h_lv (fst ir_x) = 0 /\ h_lv (fst ir_c) = 0.
Proof.
  destruct (builder_correct 2 1 (snd ir_c) [fst ir_c; fst ir_x]) as (H1 & _ & H3 & _).
  { eapply b_committed with (t := snd ir_x) (level := 0) (lv := 0); [|reflexivity]. eapply b_committed with (t := table_new 2 1) (level := 0) (lv := 0); [|reflexivity]. apply b_new. }
  split; [exact H1|]. split; [apply H3; cbn [In]; tauto|]. split; [apply H3; cbn [In]; tauto|]. split; reflexivity.
Qed.
Fact ik_id : t_id 2 (snd ik_made) = 0 /\ t_id 2 (snd ir_made) = 1.
Proof. vm_compute. auto. Qed.
Fact ik_ok0 : table_ok 2 (snd ik_made).
Proof.
  apply (made_ok (table_ok 2) ik_made _ ik_new). destruct (incr_lookup_built 2 0 (le_n 2) (table_new 2 0) 0 1 1) as (g & t & E & OK & _); [destruct (builder_correct 2 0 (table_new 2 0) [] (b_new 2 0)); tauto|reflexivity|]. exists g, t. auto.
Qed.
Fact ik_ok1 : table_ok 2 (snd ir_made).
Proof.
  apply (made_ok (table_ok 2) ir_made _ ir_new). destruct ir_start as (H1 & H2 & H3 & H4 & H5). destruct (incr_made 2 0 (snd ir_c) 0 (fst ir_x) (fst ir_c) H1 H2 H3 H4 H5) as (g & t & E & OK & _). exists g, t. auto.
Qed.
Fact ik_ok : tables_ok 2 ik_tables.
Proof.
  assert (X : forall (t u : tbl 2) n, t_id 2 t = n -> table_ok 2 t -> Some t = Some u -> t_id 2 u = n /\ table_ok 2 u) by (intros t u n H1 H2 E; injection E as <-; auto).
  destruct ik_id as [I0 I1]. intros [|[|n]] t E; [apply (X _ _ _ I0 ik_ok0 E)|apply (X _ _ _ I1 ik_ok1 E)|destruct n; discriminate E].
Qed.
Fact ik_cells : cells_hold 2 ik_tables [4; 2] ik_w.
Proof.
  intros [ct cn] i r j E R Hr Hj. destruct ct as [|[|ct]]; [| |exfalso; destruct ct; vm_compute in E; discriminate E].
  all: do 5 (destruct cn as [|cn]; [vm_compute in E; first [discriminate E|injection E as <-; cbn [ci_lv] in Hj; destruct j as [|j]; [|exfalso; clear -Hj; vm_compute in Hj; lia];
    do 4 (destruct r as [|r]; [unfold cell; cbn [ci_def ci_id]; match goal with |- True => exact I | _ => vm_compute; reflexivity end|]); exfalso; clear -Hr; vm_compute in Hr; lia]|]).
  all: exfalso; destruct cn; vm_compute in E; discriminate E.
Qed.
Fact ik_tally : tally 2 (incr_indexed 2 0) ik_w 0 ik_tables [4; 2] [] = Ok [0; 1; 0; 1]%N.
Proof. vm_compute. reflexivity. Qed.
Fact ik_flushes t p f : In (t, p) (parts_of 2 ik_tables) -> In f (p_flushes 2 p) ->
  In (t_id 2 t, f) [(0, mkTf [(0, 0)] 1 Push 1 []); (0, mkTf [(0, 1)] 1 Pull 1 []); (0, mkTf [(0, 1)] 0 Push 1 [(0, 2)]); (1, mkTf [(1, 4)] 0 Pull 1 [])].
Proof.
  intros H Hf. assert (FL : flat_map (fun tp => map (pair (t_id 2 (fst tp))) (p_flushes 2 (snd tp))) (parts_of 2 ik_tables) =
    [(0, mkTf [(0, 0)] 1 Push 1 []); (0, mkTf [(0, 1)] 1 Pull 1 []); (0, mkTf [(0, 1)] 0 Push 1 [(0, 2)]); (1, mkTf [(1, 4)] 0 Pull 1 [])]) by (vm_compute; reflexivity).
  rewrite <- FL. apply in_flat_map. exists (t, p). split; [exact H|]. cbn [fst snd]. now apply in_map.
Qed.
Fact ik_balanced : balanced 2 0 (table_events 2 ik_tables [4; 2] [] ik_w) /\ balanced 2 1 (table_events 2 ik_tables [4; 2] [] ik_w).
Proof.
  apply (lookup_complete 2 ik_tables [4; 2] [] ik_w (incr_indexed 2 0) 0 2 (incr_circuit 2 0) 0 1 1 (fst ik_made) (snd ik_made) [0; 1; 0; 1]%N ik_rows
    (fun j r => (j <? 32) && N.testbit (nth r (map snd ik_rows) 0%N) (N.of_nat j))).
  - exact ik_ok.
  - vm_compute. reflexivity.
  - reflexivity.
  - reflexivity.
  - discriminate.
  - apply incr_entries_table. lia.
  - split; [|intros x []]. intros t p f H Hf HT. pose proof (ik_flushes t p f H Hf) as X. cbn [In] in X. repeat destruct X as [X|X]; apply pair_equal_spec in X as [X1 X2] || destruct X; subst f; try congruence. cbn. repeat split; auto; lia.
  - assert (X : map (ev_values (TF 2)) (pulled 2 0 (table_events 2 ik_tables [4; 2] [] ik_w)) = [incr_index_to_entry 2 0 3; incr_index_to_entry 2 0 1]) by (vm_compute; reflexivity).
    intros e He. apply (in_map (ev_values (TF 2))) in He. rewrite X in He. destruct He as [He|[He|[]]]; [exists 3|exists 1]; (split; [cbn; lia|symmetry; exact He]).
  - vm_compute. reflexivity.
  - exact ik_tally.
  - change (combine (seq 0 (2 ^ il_log_size 2 (incr_indexed 2 0))) [0; 1; 0; 1]%N) with [(0, 0%N); (1, 1%N); (2, 0%N); (3, 1%N)]. unfold ik_rows.
    apply NoDup_Permutation; [repeat (apply NoDup_cons; [cbn [In]; intuition discriminate|]); apply NoDup_nil..|]. intros x. cbn [In]. tauto.
  - reflexivity.
  - intros r Hr. change (2 ^ il_log_size 2 (incr_indexed 2 0)) with 4 in Hr.
    do 4 (destruct r as [|r]; [split; [vm_compute; reflexivity|]; split; [vm_compute; reflexivity|]; intros [|[|j]] h E; vm_compute in E; try discriminate E; injection E as <-; vm_compute; reflexivity|]). lia.
Qed.
Fact ik_pushed : pushed_from 2 ik_tables [] 0 [h_id (tl_sorted (fst ik_made))] /\ pushed_from 2 ik_tables [] 1 [h_id (tl_ordered (fst ik_made))].
Proof.
  split; (split; [intros x []|]); intros t p f H Hf EC ED; pose proof (ik_flushes t p f H Hf) as X; cbn [In] in X; repeat destruct X as [X|X]; apply pair_equal_spec in X as [X1 X2] || destruct X; subst f; try discriminate EC; try discriminate ED; reflexivity.
Qed.
Fact ik_increments r : r < 2 ->
  (enc 2 (ik_w (h_id (in_output (fst ir_made))) r 0%nat) + 2 ^ N.of_nat (2 ^ 0) * enc 2 (ik_w (h_id (in_carry_out (fst ir_made))) r 0%nat) = enc 2 (ik_w (1, 0)%nat r 0%nat) + enc 2 (ik_w (1, 1)%nat r 0%nat))%N.
Proof.
  intros Hr. destruct ir_start as (H1 & H2 & H3 & H4 & H5). destruct ik_balanced as [B1 B2]. destruct ik_pushed as [P1 P2].
  apply (incr_lookup_sound 2 0 (le_n 2) ik_tables [4; 2] [] ik_w (table_new 2 0) 0 1 1 (fst ik_made) (snd ik_made) (snd ik_made) (snd ir_c) (fst ir_x) (fst ir_c) (fst ir_made) (snd ir_made) (snd ir_made) r).
  1: exact ik_ok. 1: reflexivity. 1: exact ik_cells. 1: exact ik_new. 1: apply later_refl. 1: reflexivity. 1: exact H1. 1: exact H2. 1: exact H3. 1: exact H4. 1: exact H5. 1: exact ir_new. 1: apply later_refl. 1: reflexivity.
  1: exact P1. 1: exact P2. 1: exact B1. 1: exact B2. 1: exact Hr. all: do 2 (destruct r as [|r]; [vm_compute; reflexivity|]); lia.
Qed.

(** ** What counting leaves out *)
(** The multiplicity of a flush is not counted, and a flush with selectors panics. *)
Definition tally_claim : Prop := forall L il (w : cells L) chan ts sizes bs,
  (forall e, In e (pulled L chan (table_events L ts sizes bs w)) -> il_entry_to_index L il (ev_values (TF L) e) < 2 ^ il_log_size L il) ->
  exists counts, tally L il w chan ts sizes bs = Ok counts /\
    forall x, (0 <= sent (TF L) Pull chan x (table_events L ts sizes bs w) < 2 ^ 32)%Z -> il_index_to_entry L il (il_entry_to_index L il x) = x ->
      Z.of_N (nth (il_entry_to_index L il x) counts 0%N) = sent (TF L) Pull chan x (table_events L ts sizes bs w).
Definition two_times : list (boundary (TF 2)) := [mkBoundary (TF 2) (bitand_index_to_entry 2 0 3) 0 Pull 2].
Theorem tally_multiplicity_refuted : ~ tally_claim.
Proof.
  intros H. destruct (H 2 (bitand_indexed 2 0) lk_w 0 [] [] two_times) as (counts & E & HC).
  - intros e [<-|[]]. vm_compute. lia.
  - vm_compute in E. injection E as <-. specialize (HC (bitand_index_to_entry 2 0 3)). assert (S2 : sent (TF 2) Pull 0 (bitand_index_to_entry 2 0 3) (table_events 2 [] [] two_times lk_w) = 2%Z) by (vm_compute; reflexivity).
    rewrite S2 in HC. specialize (HC ltac:(lia) eq_refl). vm_compute in HC. discriminate HC.
Qed.
Definition sel_made : tbl 2 := made (table_new 2 0) (flush_with_opts 2 (snd (add_committed 2 (table_new 2 0) 2 0)) Pull 0 [mkCol (0, 0) 0 2 0] 1 [mkCol (0, 0) 0 2 0]).
Theorem tally_selector_refuted : ~ tally_claim.
Proof.
  intros H. destruct (H 2 (bitand_indexed 2 0) (fun _ _ _ => f1) 0 [sel_made] [1] []) as (counts & E & _).
  - intros e He. assert (X : map (fun e => il_entry_to_index 2 (bitand_indexed 2 0) (ev_values (TF 2) e)) (pulled 2 0 (table_events 2 [sel_made] [1] [] (fun _ _ _ => f1))) = [1]) by (vm_compute; reflexivity).
    apply (in_map (fun e => il_entry_to_index 2 (bitand_indexed 2 0) (ev_values (TF 2) e))) in He. rewrite X in He. destruct He as [<-|[]]. cbn. lia.
  - vm_compute in E. discriminate E.
Qed.
