(** C73: greedy evalcheck on the oracles of EvalExamples.v. *)
Require Import Coq.NArith.NArith Coq.Arith.Arith Coq.Lists.List Coq.Bool.Bool Lia.
From Verif Require Import Base.Fld Base.Lists Base.Sums Math.MleSpec Math.MleModel Math.ArithModel Math.ArithProofs
  Field.TowerProofs Field.Examples Transparent.TransparentModel Transparent.TransparentProps Transparent.TowerBasisProps
  Transparent.ShiftModel Protocol.Proto Protocol.Soundness
  Evalcheck.OracleModel Evalcheck.EvalModel Evalcheck.EvalSpec Evalcheck.EvalProofs
  Evalcheck.EvalSound Evalcheck.EvalExtend Evalcheck.OracleProps Evalcheck.EvalExamples Sumcheck.SumcheckModel
  Evalcheck.GreedyModel Evalcheck.GreedyComp Evalcheck.GreedyWork Evalcheck.GreedySets Evalcheck.GreedyStages Evalcheck.GreedyProps.
Import ListNotations.

(** The composition of [os16] is a product, so its degree is two. *)
Fact os16_composable : composable_set 2 os16.
Proof.
  intros id o m ids c E EV. each id; cbn [nth_error os16] in E; try discriminate; try (destruct id; discriminate);
    injection E as <-; cbn [o_variant] in EV; try discriminate. injection EV as <- <- <-.
  intros pos n c k ER EK. destruct (remap_bivariate 2 pos c ER n k EK). split; auto. lia.
Qed.

(** A claim about the composition costs one composite claim over two variables of degree three, and one about the shifted column. *)
Fact os16_work : works 2 os16 = [0; 5; 3; 0; 5; 0; 12; 0; 0].
Proof. vm_compute. reflexivity. Qed.

(** False claims about the composition and about the packed column. *)
Fact greedy_soundness_ex :
  let claims := [EvalModel.mkClaim 6 p2 (el 1); EvalModel.mkClaim 2 (els [7]%N) (el 1)] in
  oset_ok os16 /\ composable_set 2 os16 /\ (forall c, In c claims -> claim_sized os16 c) /\ consistent os16 V16 /\
  (forall c, In c claims -> ~ EvalSpec.claim_true V16 c) /\ claims_work 2 2 os16 claims = 15.
Proof.
  split; [exact os16_ok|]. split; [exact os16_composable|]. split.
  { intros c H. repeat (destruct H as [<-|H]; [eexists; split; reflexivity|]). destruct H. }
  split; [exact V16_consistent|]. split; [|vm_compute; reflexivity].
  intros c H. repeat (destruct H as [<-|H]; [intros E; apply (f_equal bits) in E; vm_compute in E; discriminate|]). destruct H.
Qed.

(** A run for the packed column: a sumcheck over one variable, whose outputs are claims about a projection of the committed
    column, hence about the committed column, and about a transparent polynomial. *)
Definition packed_f (x : X16) : X16 := mle (V16 0) [x; el 7].
Definition packed_g (x : X16) : X16 := mle (fun k => basis_product 2 1 k) [x].
Definition greedy_tape (a c : X16) : list X16 :=
  let f0 := packed_f (el 0) in let f1 := packed_f (el 1) in
  let g0 := packed_g (el 0) in let g1 := packed_g (el 1) in
  [el 1; (a * (f0 * g0))%F; (a * (f0 * (g0 + g1) + g0 * (f0 + f1)))%F; packed_f c; packed_g c; el 1; el 1; el 1].
Definition show_out (r : res ((list (EvalModel.claim 2) * oset 2) * list X16 * list X16)) :=
  match r with
  | Ok (out, rest, cs) => Some (map (fun c => (c_id c, map bits (c_point c), bits (EvalModel.c_eval c))) (fst out), length (snd out), map bits rest, map bits cs)
  | _ => None
  end.
Fact greedy_run_ex :
  show_out (vrun (greedy_verify int16 4 os16 [true_claim 2 (els [7]%N)]) (greedy_tape (el 5) (el 12)) (els [5; 12]%N)) =
    Some ([(0, [12; 7]%N, 14%N)], 11, [], []) /\
  bits (mle (V16 0) (els [12; 7]%N)) = 14%N.
Proof. vm_compute. auto. Qed.
(** The same messages for a false claim, or after another challenge. *)
Fact greedy_run_rejects :
  show_out (vrun (greedy_verify int16 4 os16 [EvalModel.mkClaim 2 (els [7]%N) (el 1)]) (greedy_tape (el 5) (el 12)) (els [5; 12]%N)) = None /\
  show_out (vrun (greedy_verify int16 4 os16 [true_claim 2 (els [7]%N)]) (greedy_tape (el 5) (el 12)) (els [5; 13]%N)) = None.
Proof. vm_compute. auto. Qed.
