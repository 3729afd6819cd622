(** C44, C66, C67: a concrete set of oracles over the field with 16 elements, and what the code gets
    wrong. *)
Require Import Coq.NArith.NArith Coq.Arith.Arith Coq.Lists.List Coq.Bool.Bool Lia.
From Verif Require Import Base.Fld Base.Lists Base.Sums Math.MleSpec Math.MleModel Math.ArithModel Math.ArithProofs
  Field.TowerProofs Field.Examples Transparent.TransparentModel Transparent.TransparentProps Transparent.TowerBasisProps
  Transparent.ShiftModel Protocol.Proto Protocol.Soundness
  Evalcheck.OracleModel Evalcheck.EvalModel Evalcheck.EvalSpec Evalcheck.EvalProofs
  Evalcheck.EvalSound Evalcheck.EvalExtend Evalcheck.EvalComplete Evalcheck.EvalSafe Evalcheck.OracleProps.
Import ListNotations.

(** A column of four elements of the subfield with 4 elements, and virtual oracles of each kind. *)
Definition mul16 : circuit X16 := [SVar 0; SVar 1; SMul 0 1].
Definition os16 : oset 2 := [
  Some (mkOracle 2 1 Committed);
  Some (mkOracle 2 1 (Shifted 0 1 2 CircularLeft));
  Some (mkOracle 1 2 (Packed 0 1));
  Some (mkOracle 3 1 (Repeating 0 1));
  Some (mkOracle 2 2 (LinearCombination 2 (el 5) [(0, el 3); (1, el 7)]));
  None;
  Some (mkOracle 2 1 (Composite 2 [0; 1] mul16));
  Some (mkOracle 3 1 (ZeroPadded 0 1 1 1));
  Some (mkOracle 2 1 (Projected 3 [el 9] 1))].

(** It is what the functions that add oracles build. *)
Definition build16 : res (oset 2) :=
  let '(os, id) := add_committed [] 2 1 in
  try x <- add_shifted os id 1 2 CircularLeft; let '(os, id1) := x in
  try x <- add_packed os id 1; let '(os, _) := x in
  try x <- add_repeating os id 1; let '(os, id3) := x in
  try x <- add_linear_combination_with_offset os 2 (el 5) [(id, el 3); (id1, el 7)]; let '(os, _) := x in
  let os := add_skip os in
  try x <- add_composite_mle os 2 [id; id1] mul16; let '(os, _) := x in
  try x <- add_zero_padded os id 1 1 1; let '(os, _) := x in
  try x <- add_projected os id3 [el 9] 1; let '(os, _) := x in
  Ok os.
Fact build16_ex : build16 = Ok os16.
Proof. vm_compute. reflexivity. Qed.

Ltac each id := destruct id as [|[|[|[|[|[|[|[|[|id]]]]]]]]].

Lemma mul16_wf : wf mul16.
Proof.
  intros i s Ei. destruct i as [|[|[|i]]]; cbn [nth_error mul16] in Ei; try (destruct i; discriminate);
    injection Ei as <-; (split; [|exact I]); intros r Hr; cbn in Hr; intuition lia.
Qed.

Fact os16_ok : oset_ok os16.
Proof.
  assert (R : forall id i m o, i < id -> nth_error os16 i = Some (Some o) -> o_nvars o = m -> refers os16 id i m).
  { intros id i m o H E N. split; auto. exists o. auto. }
  intros id o E. each id; cbn [nth_error os16] in E; try discriminate; try (destruct id; discriminate);
    injection E as <-; cbn [variant_ok o_nvars o_variant]; auto.
  - split; [cbn; lia|]. eapply R; [lia|reflexivity|reflexivity].
  - eapply R; [lia|reflexivity|reflexivity].
  - split; [lia|]. eapply R; [lia|reflexivity|reflexivity].
  - split; auto. intros i c [H|[H|[]]]; injection H as <- <-; (eapply R; [lia|reflexivity|reflexivity]).
  - split; auto. split; [intros i [<-|[<-|[]]]; (eapply R; [lia|reflexivity|reflexivity])|]. split; [exact mul16_wf|]. split; [discriminate|cbn; lia].
  - split; [lia|]. eapply R; [lia|reflexivity|reflexivity].
  - split; [lia|]. eapply R; [lia|reflexivity|reflexivity].
Qed.

Example os16_provable : provable 2 os16.
Proof.
  intros id o E. each id; cbn [nth_error os16] in E; try discriminate; try (destruct id; discriminate);
    injection E as <-; cbn [o_variant]; auto.
  - intros oi [= <-]. cbn. lia.
Qed.

(** the values *)
Definition col16 (x : nat) : X16 := nth x (els [1; 3; 2; 2]%N) f0.
Definition V16 : values 2 := fun id x =>
  match id with
  | 0 => col16 x
  | 1 => shifted_value CircularLeft 2 1 col16 x
  | 2 => sumn 2 (fun k => basis_product 2 1 k * col16 (x * 2 + k)%nat)%F
  | 3 => col16 (x mod 4)
  | 4 => (el 5 + (el 3 * col16 x + (el 7 * shifted_value CircularLeft 2 1 col16 x + f0)))%F
  | 6 => (col16 x * shifted_value CircularLeft 2 1 col16 x)%F
  | 7 => if (x / 2 ^ 1) mod 2 ^ 1 =? 1 then col16 (x mod 2 ^ 1 + 2 ^ 1 * (x / 2 ^ (1 + 1))) else f0
  | 8 => mle (fun x => col16 (x mod 4)) (vertex 1 x ++ [el 9] ++ vertex 1 (x / 2 ^ 1))
  | _ => f0
  end.

Fact V16_consistent : consistent os16 V16.
Proof.
  intros id o E x Hx. each id; cbn [nth_error os16] in E; try discriminate; try (destruct id; discriminate);
    injection E as <-; cbn [o_nvars o_variant] in *; clear Hx.
  - exact I.
  - exact eq_refl.
  - intros inner [= <-]. exact eq_refl.
  - exact eq_refl.
  - exact eq_refl.
  - cbn [defined_at map]. unfold evaluate, evals, mul16. cbn [ofold step_val nth_error app option_map last]. exact eq_refl.
  - exact eq_refl.
  - exact eq_refl.
Qed.

(** Claims about the linear combination, the composition, the padded, the projected and the packed
    oracle; a 4-bit message stands for the integers below 16. *)
Definition int16 (x : X16) : nat := N.to_nat (bits x).
Definition p2 : list X16 := els [6; 11]%N.
Definition p3 : list X16 := els [6; 11; 13]%N.
Definition true_claim (id : nat) (p : list X16) : claim 2 := mkClaim id p (mle (V16 id) p).
Definition claims16 : list (claim 2) :=
  [true_claim 4 p2; true_claim 6 p2; true_claim 7 p3; true_claim 8 p2; true_claim 2 (els [7]%N)].

Lemma int16_onto k : k < 16 -> exists x, int16 x = k.
Proof. intros H. exists (el (N.of_nat k)). do 16 (destruct k as [|k]; [reflexivity|]). lia. Qed.

Lemma claims16_sized c : In c claims16 -> claim_sized os16 c.
Proof. intros H. repeat (destruct H as [<-|H]; [eexists; split; reflexivity|]). destruct H. Qed.

Lemma vnew_ok (os : oset 2) : oset_ok os -> vstate_ok (vnew os).
Proof. intros H. split; auto. split; [intros [|n] b u E; discriminate|]. split; [intros p b u []|intros c []]. Qed.

Fact evalcheck_complete_ex : exists tape st' V',
  (forall rest cs, vrun (verify int16 claims16 (vnew os16)) (tape ++ rest) cs = Ok (st', rest, cs)) /\
  consistent (st_oracles st') V' /\ obligations V' st'.
Proof.
  destruct (evalcheck_complete 2 int16 16 int16_onto ltac:(lia) claims16 (vnew os16) V16) as (tape & st' & V' & H1 & _ & _ & H2 & _ & H3).
  - apply vnew_ok, os16_ok.
  - exact os16_provable.
  - exact V16_consistent.
  - split; [intros c []|]. split; [intros [|n] b u E; discriminate|intros p b u []].
  - cbn. lia.
  - intros c H. split; [now apply claims16_sized|]. unfold claims16, true_claim in H.
    repeat (destruct H as [<-|H]; [reflexivity|]). destruct H.
  - exists tape, st', V'. auto.
Qed.

Fact evalcheck_sound_ex : sound (fun st' => vstate_ok st' /\ (exists new, st_oracles st' = os16 ++ new) /\
    forall V, consistent (st_oracles st') V -> obligations V st' -> obligations V (vnew os16) /\ forall c, In c claims16 -> claim_true V c)
  0 (verify int16 claims16 (vnew os16)).
Proof. apply (evalcheck_sound 2 int16 claims16 (vnew os16)); [apply vnew_ok, os16_ok|exact claims16_sized]. Qed.

(** A run: the linear combination opens the committed column and the shifted one; the second claim is
    deferred at a new point, the third and the fourth open the committed column, the last is packed.
    The result: oracles, committed claims (oracle, point, value), sumchecks by number of variables,
    points with deferred claims. *)
Definition show_state (r : res (vstate 2 * list X16 * list X16)) :=
  match r with
  | Ok (st, rest, _) => Some (length (st_oracles st), map (fun c => (c_id c, map bits (c_point c), bits (c_eval c))) (st_committed st),
      map (map (fun u => (u_ids u, bits (u_sum u)))) (st_sums st), map (fun x => (map bits (fst x), length (snd x))) (st_mles st), map bits rest)
  | _ => None
  end.
Definition tape16 : list X16 := [el 1; el 1; mle (V16 0) p2; el 1; mle (V16 1) p2; el 1; el 5; el 1; el 1; el 1; el 1; el 1; el 1].
Fact run16_ex : show_state (vrun (verify int16 claims16 (vnew os16)) tape16 []) =
  Some (12, [(0, [6; 11]%N, 9%N); (0, [6; 13]%N, 11%N); (0, [6; 9]%N, 5%N)], [[]; [([10; 11], 6%N)]; [([0; 9], 1%N)]], [([6; 11]%N, 1)], []).
Proof. vm_compute. reflexivity. Qed.

(** A false claim about the linear combination, with the same proof; and one that refers to an earlier
    claim instead of repeating it. *)
Fact run16_rejects : show_state (vrun (verify int16 [mkClaim 4 p2 (el 1)] (vnew os16)) tape16 []) = None.
Proof. vm_compute. reflexivity. Qed.
Fact run16_duplicate : show_state (vrun (verify int16 [true_claim 0 p2; true_claim 3 p3; true_claim 4 p2] (vnew os16))
    [el 1; el 1; el 2; el 0; el 1; el 2; el 0; el 1; mle (V16 1) p2] []) =
  Some (10, [(0, [6; 11]%N, 9%N)], [[]; []; [([0; 9], 1%N)]], [], []).
Proof. vm_compute. reflexivity. Qed.

(** The sumchecks and composition claims handed over. *)
Definition show_set (s : cset 2) := (cs_nvars s, cs_ids s, map (fun c => (length (fst c), bits (snd c))) (cs_constraints s)).
Fact take16_ex : match vrun (verify int16 claims16 (vnew os16)) tape16 [] with
  | Ok (st, _, _) => match take_new_sumcheck_constraints st, take_new_mlechecks_constraints st with
    | Ok (a, _), Ok (b, _) => Some (map show_set a, map (fun x => (map bits (fst x), show_set (snd x))) b)
    | _, _ => None
    end
  | _ => None
  end = Some ([(1, [10; 11], [(3, 6%N)]); (2, [0; 9], [(3, 1%N)])], [([6; 11]%N, (2, [0; 1], [(3, bits (mle (V16 6) p2))]))]).
Proof. vm_compute. reflexivity. Qed.

(** Two constraints over overlapping oracles. *)
Fact build_one_ex : match build_one os16 [mkUn [4; 0] mul16 (el 3); mkUn [1; 0] [SVar 1; SVar 0; SAdd 0 1] (el 7)] with
  | Ok (Built s) => Some (cs_nvars s, cs_ids s, map (fun c => (bits (comp_at V16 (cs_ids s) (fst c) 1), bits (snd c))) (cs_constraints s))
  | _ => None
  end = Some (2, [0; 1; 4], [(bits (fmul (V16 4 1) (V16 0 1)), 3%N); (bits (fadd (V16 0 1) (V16 1 1)), 7%N)]).
Proof. vm_compute. reflexivity. Qed.
(** Oracles of different sizes, and an unknown oracle. *)
Fact build_one_err : build_one os16 [mkUn [0; 3] mul16 (el 3)] = Err /\ build_one os16 [mkUn [0; 9] mul16 (el 3)] = Err.
Proof. split; vm_compute; reflexivity. Qed.

(** A constructor case of each kind: hypotheses of the theorems of C66. *)
Fact add_shifted_ex : exists os' id, add_shifted os16 3 3 2 LogicalLeft = Ok (os', id) /\
  adds_oracle 2 os16 os' id 3 (fun V => shifted_value LogicalLeft 2 3 (V 3)).
Proof. exact (add_shifted_correct 2 os16 3 3 2 LogicalLeft _ os16_ok eq_refl). Qed.
Fact add_packed_ex : exists os' id, add_packed os16 3 1 = Ok (os', id) /\
  adds_oracle 2 os16 os' id 2 (fun V x => sumn 2 (fun k => basis_product 2 1 k * V 3 (x * 2 + k)%nat)%F).
Proof. exact (add_packed_correct 2 os16 3 1 _ os16_ok eq_refl). Qed.
Fact add_projected_last_ex : exists os' id, add_projected_last_vars os16 3 (els [7; 12]%N) = Ok (os', id) /\
  adds_oracle 2 os16 os' id 1 (fun V x => mle (V 3) (vertex 1 x ++ els [7; 12]%N)).
Proof. exact (add_projected_last_vars_correct 2 os16 3 (els [7; 12]%N) _ os16_ok eq_refl). Qed.
Fact add_composite_ex : match add_composite_mle os16 2 [4; 8] mul16 with Ok (os', id) => id = 9 /\ oset_ok os' | _ => False end.
Proof.
  assert (W : ArithProps.cwf (TF 2) mul16) by (split; [discriminate|exact mul16_wf]).
  assert (H := add_composite_correct 2 os16 2 [4; 8] mul16 os16_ok W).
  destruct (add_composite_mle os16 2 [4; 8] mul16) as [[os' id]| |] eqn:E.
  - destruct H as (H1 & H2 & _); [|now split]. intros i [<-|[<-|[]]]; eexists; split; reflexivity.
  - vm_compute in E. discriminate.
  - vm_compute in E. discriminate.
Qed.

(** * What the code gets wrong *)

(** A proof that names an earlier claim that does not exist, for a term of a linear combination, makes
    the verifier panic: lines 331-337 of verify.rs index [round_claims] without a check. *)
Theorem evalcheck_panics_refuted : exists tape, vrun (verify int16 [true_claim 4 p2] (vnew os16)) tape [] = Panic.
Proof. exists [el 1; el 2; el 9]. vm_compute. reflexivity. Qed.

(** An index equal to the number of rows is accepted for a zero-padded oracle (line 763 of
    multilinear.rs compares with [>]); its column is zero, and no proof of that is accepted. *)
Theorem padded_index_refuted : exists os' id, add_zero_padded os16 0 1 2 1 = Ok (os', id) /\ oset_ok os' /\
  (forall V, consistent os' V -> claim_true V (mkClaim id p3 f0)) /\
  forall tape cs, vrun (verify int16 [mkClaim id p3 f0] (vnew os')) tape cs = Err.
Proof.
  destruct (add_zero_padded_correct 2 os16 0 1 2 1 _ os16_ok eq_refl) as (os' & id & E & A). exists os', id. split; auto.
  destruct A as (EI & K & _ & HV). split; auto. split.
  - intros V C. unfold claim_true. cbn [c_id c_point c_eval]. rewrite (mle_ext _ _ (fun _ => f0)); [apply mle_const|].
    intros x Hx. rewrite HV by auto. destruct (Nat.eqb_spec ((x / 2 ^ 1) mod 2 ^ 1) 2) as [H|]; auto.
    assert (B := Nat.mod_upper_bound (x / 2 ^ 1) (2 ^ 1) ltac:(discriminate)). cbn in B, H. rewrite H in B. lia.
  - intros tape cs. vm_compute in E. injection E as <- <-. destruct tape as [|t tape]; [reflexivity|].
    cbn [verify verify_loop verify_multilinear read_hint read_u32 vbind vrun length Nat.ltb Nat.leb firstn skipn hd].
    destruct (int16 t) as [|[|[|k]]]; cbn [vbind vrun]; try reflexivity.
    destruct tape as [|t' tape]; cbn [vrun length Nat.ltb Nat.leb]; [reflexivity|].
    cbn [firstn skipn hd set_round st_round]. now destruct (int16 t').
Qed.

(** A structured oracle over more variables than its circuit has is accepted; the verifier panics on
    any claim about it (line 168 of verify.rs subtracts). *)
Theorem structured_n_vars_refuted : exists os' id, add_structured os16 2 [SVar 0] = Ok (os', id) /\
  forall p e, length p = 2 -> vrun (verify int16 [mkClaim id p e] (vnew os')) [el 1] [] = Panic.
Proof.
  do 2 eexists. split; [reflexivity|]. intros p e H. destruct p as [|a [|b [|c p]]]; try discriminate. reflexivity.
Qed.

(** A packed oracle whose level is above that of the field is accepted; no claim about it is. *)
Theorem packed_level_refuted : exists os' id, add_packed os16 4 1 = Ok (os', id) /\
  forall e tape cs, vrun (verify int16 [mkClaim id (els [7]%N) e] (vnew os')) tape cs = Err.
Proof.
  do 2 eexists. split; [reflexivity|]. intros e tape cs. destruct tape as [|t tape]; [reflexivity|].
  cbn [verify verify_loop verify_multilinear read_hint read_u32 vbind vrun length Nat.ltb Nat.leb firstn skipn hd].
  destruct (int16 t) as [|[|[|k]]]; cbn [vbind vrun]; try reflexivity.
  destruct tape as [|t' tape]; cbn [vrun length Nat.ltb Nat.leb]; [reflexivity|].
  cbn [firstn skipn hd set_round st_round]. now destruct (int16 t').
Qed.

(** A composition over no oracles is accepted, and so is a claim about it, but the constraints cannot
    be built. *)
Theorem empty_composite_refuted : exists os' id, add_composite_mle os16 2 [] [SConst (el 5)] = Ok (os', id) /\
  match vrun (verify int16 [mkClaim id p2 (el 5)] (vnew os')) [el 1; el 0] [] with
  | Ok (st, _, _) => take_new_mlechecks_constraints st = Err
  | _ => False
  end.
Proof. do 2 eexists. split; [vm_compute; reflexivity|]. vm_compute. reflexivity. Qed.

(** Too many values for the last variables: panic instead of the documented error. *)
Theorem projected_last_vars_refuted : add_projected_last_vars os16 0 (els [1; 2; 3]%N) = Panic.
Proof. exact (add_projected_last_vars_correct 2 os16 0 (els [1; 2; 3]%N) _ os16_ok eq_refl). Qed.
