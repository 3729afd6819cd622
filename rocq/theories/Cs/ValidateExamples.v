(** C81: a constraint system and a witness that meet the hypotheses of ValidateProps.v, and what the check does not see. *)
Require Import Coq.ZArith.ZArith Coq.NArith.NArith Coq.Arith.Arith Coq.Lists.List Coq.Bool.Bool Lia.
From Verif Require Import Transcript.SerProofs Evalcheck.EvalProofs Base.Fld Base.Lists Base.Sums Math.MleSpec Math.MleModel Math.ArithModel Math.ArithProofs Math.ArithProps
  Field.TowerModel Field.TowerProofs Field.Examples Transparent.TransparentModel Transparent.ShiftModel Sumcheck.ZerocheckModel Gkr.ExpModel Compute.CircuitPolyModel Compute.CircuitPolyProps
  Evalcheck.OracleModel Evalcheck.SymbolicModel Evalcheck.SymbolicProps Evalcheck.EvalModel Evalcheck.EvalSpec
  Cs.ChannelModel Cs.ChannelProps Cs.FlushModel Cs.VerifyModel Cs.ValidateModel Cs.ValidateProofs Cs.ValidateProps.
Import ListNotations.
Local Close Scope N_scope.
Local Close Scope Z_scope.
Local Open Scope nat_scope.

(** Supported circuits (Compute/CircuitPolyProps.v, C68) are compiled correctly. *)
Lemma compiles_supported L n (c e : circuit (TF L)) : cwf (TF L) c -> n_vars c <= n -> optimize false true c = Some e -> supportedb e = true -> n_vars e <= n -> compiles L n c.
Proof.
  intros W NC EO SB NE. destruct (optimize_checked_correct (TF L) true c e (fun _ => TF_char2 L) W EO) as [[_ We] _]. pose proof (supportedb_ok e We SB) as S.
  destruct (circuit_poly_partial true c e n (fun _ => TF_char2 L) W EO S NE) as (p & EP & _ & HV & _). split; [exact W|]. split; [exact NC|]. exists p. split; [exact EP|exact HV].
Qed.

(** Eight scalars of two bits, their projection, shift, packed form, a linear combination and a product; an empty table; one constraint, two columns
    without zeros, and a channel on which the three rows of the table are pushed. *)
Definition product81 : circuit X16 := cmul (cvar 0) (cvar 1).
Definition sym81 : sset 2 := [
  mkSym 0 1 1 SymCommitted;
  mkSym 0 0 1 (SymProjected 0 [f1] (Some 0));
  mkSym 0 1 1 (SymShifted 0 1 1 CircularLeft);
  mkSym 0 0 2 (SymPacked 0 1);
  mkSym 1 0 0 SymCommitted;
  mkSym 0 1 2 (SymLinearCombination (el 5) [(0, el 3); (2, el 7)]);
  mkSym 0 1 1 (SymComposite [0; 2] product81)].
Definition os81 : oset 2 := [
  Some (mkOracle 3 1 Committed); Some (mkOracle 2 1 (Projected 0 [f1] 0)); Some (mkOracle 3 1 (Shifted 0 1 1 CircularLeft));
  Some (mkOracle 2 2 (Packed 0 1)); None; Some (mkOracle 3 2 (LinearCombination 3 (el 5) [(0, el 3); (2, el 7)]));
  Some (mkOracle 3 1 (Composite 3 [0; 2] product81))].
Definition a81 : list X16 := els [9; 6; 11; 1]%N.
Definition col81 (x : nat) : X16 := nth x (en_evals 2 (mkEntry 2 3 1 a81)) f0.
Definition swap81 (x : nat) : X16 := col81 (if Nat.even x then x + 1 else x - 1).
Definition w81 : index 2 := fun id => nth id [
  Some (mkEntry 2 3 1 a81); Some (mkEntry 2 2 1 (els [6; 2]%N)); Some (mkEntry 2 3 1 (els [6; 9; 14; 4]%N)); Some (mkEntry 2 2 2 a81); None;
  Some (mkEntry 2 3 2 (map (fun x => fadd (el 5) (fadd (fmul (el 3) (col81 x)) (fmul (el 7) (swap81 x)))) (seq 0 8)));
  Some (mkEntry 2 3 2 (map (fun x => fmul (col81 x) (swap81 x)) (seq 0 8)))] None.

Definition sys81 : system 2 := mkSystem 2 [mkTc 2 0 1 [6; 0; 2] [(cadd (cvar 0) (cmul (cvar 1) (cvar 2)), None)]; mkTc 2 1 0 [4] [(cvar 0, None)]]
  [mkFlush X16 0 0 [Oracle X16 3] 0 Push [] 1%N] [3; 4] 1 [] [Arbitrary; Arbitrary].
Definition bounds81 : list (boundary X16) := map (fun v => mkBoundary X16 [el v] 0 Pull 1%N) [9; 6; 11]%N.
Definition zeros81 (n : nat) : list X16 := repeat f0 n.

Fact sym81_instance : instantiate 2 sym81 [3; 0] = Ok os81.
Proof. vm_compute. reflexivity. Qed.
Lemma zeros81_length n : length (zeros81 n) = n.
Proof. apply repeat_length. Qed.
Lemma product81_cwf : cwf X16 product81.
Proof. destruct (circuits_wf X16) as (_ & HV & HO & _). apply HO; apply HV. Qed.
Fact os81_ok : oset_ok os81.
Proof.
  assert (R : forall i j m o, j < i -> nth_error os81 j = Some (Some o) -> o_nvars o = m -> refers os81 i j m) by (intros; split; eauto).
  intros i o E. destruct i as [|[|[|[|[|[|[|i]]]]]]]; cbn [nth_error os81] in E; try (destruct i; discriminate); try discriminate; injection E as <-; cbn [variant_ok o_variant o_nvars]; auto.
  - split; [lia|]. eapply R; [lia|reflexivity|reflexivity].
  - split; [cbn; lia|]. eapply R; [lia|reflexivity|reflexivity].
  - eapply R; [lia|reflexivity|reflexivity].
  - split; [reflexivity|]. intros j c [H|[H|[]]]; injection H as <- <-; (eapply R; [lia|reflexivity|reflexivity]).
  - split; [reflexivity|]. split; [intros j [<-|[<-|[]]]; (eapply R; [lia|reflexivity|reflexivity])|]. split; [apply product81_cwf|]. split; [discriminate|vm_compute; lia].
Qed.
Lemma some_inj {A} (a b : A) : Some a = Some b -> a = b.
Proof. congruence. Qed.
Lemma list_entries L (l : list (option (entry L))) : Forall (fun o => match o with Some e => entry_ok L e | None => True end) l -> entries_ok L (fun id => nth id l None).
Proof.
  intros H id e E. destruct (Nat.lt_ge_cases id (length l)) as [LT|GE]; [|rewrite nth_overflow in E by exact GE; discriminate].
  rewrite Forall_forall in H. specialize (H _ (nth_In l None LT)). now rewrite E in H.
Qed.
Fact w81_entries : entries_ok 2 w81.
Proof.
  apply list_entries. repeat constructor; cbn [en_level en_nvars]; lia.
Qed.
Fact os81_packed : packed_levels 2 os81 w81.
Proof.
  intros id o i d inner E. destruct id as [|[|[|[|[|[|[|id]]]]]]]; cbn [nth_error os81] in E; try (destruct id; discriminate E); try discriminate E; injection E as <-; cbn [o_variant]; intros EV; try discriminate EV.
  injection EV as <- <-. intros EI. injection EI as <-. split; [reflexivity|]. split; intros e H; apply some_inj in H; subst e; reflexivity.
Qed.
Fact os81_compile : composites_compile 2 os81.
Proof.
  intros id o m ids c E. destruct id as [|[|[|[|[|[|[|id]]]]]]]; cbn [nth_error os81] in E; try (destruct id; discriminate E); try discriminate E; injection E as <-; cbn [o_variant]; intros EV; try discriminate EV.
  injection EV as <- <- <-. eapply compiles_supported; [exact product81_cwf|cbn; lia|reflexivity|vm_compute; reflexivity|cbn; lia].
Qed.
Fact sys81_sets : sets_ok 2 os81 sys81 [3; 0].
Proof.
  destruct (circuits_wf X16) as (_ & HV & HO & _). intros t [<-|[<-|[]]]; (split; [cbn; lia|]); intros NZ; [|exfalso; apply NZ; reflexivity]. split.
  - intros id [<-|[<-|[<-|[]]]]; eexists; (split; [reflexivity|reflexivity]).
  - intros _ c p [H|[]]. injection H as <- <-.
    eapply compiles_supported; [apply HO; [apply HV|apply HO; apply HV]|cbn; lia|reflexivity|vm_compute; reflexivity|cbn; lia].
Qed.
Fact os81_storable id o : nth_error os81 id = Some (Some o) -> storable 2 o.
Proof.
  intros E. destruct id as [|[|[|[|[|[|[|id]]]]]]]; cbn [nth_error os81] in E; try (destruct id; discriminate E); try discriminate E; injection E as <-; cbn; auto; lia.
Qed.
(** The witness is accepted, so all of the hypotheses and conclusions of [validate_sound] hold together. *)
Fact validate81 : validate 2 zeros81 false sym81 sys81 bounds81 [3; 0] w81 = Ok tt /\ validate 2 zeros81 true sym81 sys81 bounds81 [3; 0] w81 = Ok tt.
Proof. split; vm_compute; reflexivity. Qed.
Fact satisfied81 : let V := witness_values 2 w81 in
  consistent os81 V /\ constraints_hold 2 V sys81 [3; 0] /\ no_zeros 2 os81 V sys81 /\ channels_ok 2 eq (polys 2 w81) sys81 bounds81 [3; 0].
Proof.
  apply (validate_sound 2 zeros81 zeros81_length sym81 sys81 bounds81 [3; 0] w81 os81 sym81_instance os81_ok w81_entries os81_packed os81_compile sys81_sets).
  - cbn. lia.
  - intros id o i pad nz s E. destruct id as [|[|[|[|[|[|[|id]]]]]]]; cbn [nth_error os81] in E; try (destruct id; discriminate E); try discriminate E; injection E as <-; discriminate.
  - vm_compute. reflexivity.
  - apply validate81.
Qed.
(** Changing a value of any of the derived columns, of the constraint, or of the channel is noticed. *)
Definition set81 (k : nat) (e : entry 2) : index 2 := fun id => if id =? k then Some e else w81 id.
Fact validate81_rejects :
  Forall (fun w => validate 2 zeros81 false sym81 sys81 bounds81 [3; 0] w = Err)
    [set81 1 (mkEntry 2 2 1 (els [6; 3]%N)); set81 2 (mkEntry 2 3 1 (els [6; 9; 14; 5]%N)); set81 3 (mkEntry 2 2 2 (els [9; 6; 11; 2]%N));
     set81 5 (mkEntry 2 3 2 (els [1; 2; 3; 4; 5; 6; 7; 8]%N)); set81 6 (mkEntry 2 3 2 (els [1; 2; 3; 4; 5; 6; 7; 8]%N))] /\
  validate 2 zeros81 false sym81 sys81 (tl bounds81) [3; 0] w81 = Err.
Proof. split; [repeat constructor; vm_compute; reflexivity|vm_compute; reflexivity]. Qed.

(** * What is not checked *)

(** Only the first [2^n_pad_vars] rows of a zero-padded column are compared (validate.rs line 230 and following), so values in its padding are accepted. *)
Theorem validate_zero_padded_refuted : exists ss sys w os, instantiate 2 ss [1] = Ok os /\ oset_ok os /\ entries_ok 2 w /\ columns_ok 2 os w /\
  validate 2 zeros81 true ss sys [] [1] w = Ok tt /\ ~ consistent os (witness_values 2 w).
Proof.
  exists [mkSym 0 1 2 SymCommitted; mkSym 0 2 2 (SymZeroPadded 0 1 0 1)], (mkSystem 2 [] [] [] 1 [] [Arbitrary]),
    (fun id => nth id [Some (mkEntry 2 1 2 (els [7; 8]%N)); Some (mkEntry 2 2 2 (els [7; 8; 5; 6]%N))] None), [Some (mkOracle 1 2 Committed); Some (mkOracle 2 2 (ZeroPadded 0 1 0 1))].
  split; [vm_compute; reflexivity|]. split.
  { intros id o E. destruct id as [|[|id]]; cbn [nth_error] in E; try (destruct id; discriminate E); injection E as <-; cbn [variant_ok o_variant o_nvars]; auto.
    split; [lia|]. split; [lia|]. eexists. split; reflexivity. }
  split. { apply list_entries. repeat constructor; cbn [en_level en_nvars]; lia. }
  split. { intros id o E. destruct id as [|[|id]]; cbn [nth_error] in E; try (destruct id; discriminate E); injection E as <-; eexists; (split; [reflexivity|reflexivity]). }
  split; [vm_compute; reflexivity|]. intros C. specialize (C 1 _ eq_refl 2 ltac:(cbn; lia)). vm_compute in C. discriminate C.
Qed.

(** The exponentiations of the constraint system are not looked at: with the bit 1 the result of raising 2 to it must be 2, and 3 is accepted. *)
Theorem validate_exponents_refuted : exists ss sys w, let V := witness_values 2 w in
  sys_exponents 2 sys = [mkExp [0] (BaseConst (el 2)) 1] /\ entries_ok 2 w /\
  validate 2 zeros81 true ss sys [] [1] w = Ok tt /\ V 0 0 = f1 /\ V 1 0 <> el 2.
Proof.
  exists [mkSym 0 0 0 SymCommitted; mkSym 0 0 2 SymCommitted], (mkSystem 2 [] [] [] 1 [mkExp [0] (BaseConst (el 2)) 1] [Arbitrary]),
    (fun id => nth id [Some (mkEntry 2 0 0 (els [1]%N)); Some (mkEntry 2 0 2 (els [3]%N))] None).
  split; [reflexivity|]. split. { apply list_entries. repeat constructor; cbn [en_level en_nvars]; lia. }
  split; [vm_compute; reflexivity|]. split; [vm_compute; reflexivity|]. vm_compute. discriminate.
Qed.

(** A constraint set without columns is skipped, so the constraint [1 = 0] is accepted. *)
Theorem validate_constant_refuted : exists sys c, In (mkTc 2 0 0 [] [(c, None)]) (sys_tables 2 sys) /\ evaluate c [] = Some (f1 : X16) /\
  validate 2 zeros81 true [] sys [] [1] (fun _ => None) = Ok tt.
Proof.
  exists (mkSystem 2 [mkTc 2 0 0 [] [(cconst f1, None)]] [] [] 1 [] [Arbitrary]), (cconst f1). split; [now left|]. split; [reflexivity|]. vm_compute. reflexivity.
Qed.
