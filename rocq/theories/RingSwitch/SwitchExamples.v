(** C51, C64, C65: concrete cases over the field with 16 elements. *)
Require Import Coq.NArith.NArith Coq.Arith.Arith Coq.Lists.List Coq.Bool.Bool Lia.
From Verif Require Import Base.Fld Base.Lists Base.Sums Field.TowerProofs Field.Examples Math.MleSpec Protocol.Proto Protocol.Soundness Compute.CpuModel Transparent.ShiftProps
  RingSwitch.TensorModel RingSwitch.AlgebraProps RingSwitch.TowerExt RingSwitch.SwitchModel RingSwitch.SwitchEqProps RingSwitch.SwitchSpec RingSwitch.SwitchProofs RingSwitch.SwitchSound RingSwitch.SwitchComplete.
Import ListNotations.

(** all packing degrees of the field with 16 elements *)
Definition E16 (kappa : nat) : option (ext X16 kappa) := match le_dec kappa 2 with left H => Some (tower_ext 2 kappa H) | right _ => None end.
Definition X2 : ext X16 2 := tower_ext 2 2 (le_n 2).
Definition X1 : ext X16 1 := tower_ext 2 1 (le_S _ _ (le_n 1)).

(** The tensor algebra over the field with 4 elements: 2 vertical entries. *)
Fact tensor_ex : shown (Ok (ttensor X16 1 X1 (el 7) (el 5))) = Ok [7; 7]%N /\ shown (transpose X16 1 X1 (els [7; 7]%N)) = Ok [15; 5]%N /\
  shown (Ok (ttensor X16 1 X1 (el 5) (el 7))) = Ok [15; 5]%N /\ shown (scale_horizontal X16 1 X1 (els [7; 7]%N) (el 12)) = Ok [14; 9]%N.
Proof. vm_compute. repeat split. Qed.
Example tensor_fold_ex : shown (try x <- fold_vertical X16 1 X1 (els [7; 9]%N) (els [3; 11]%N); Ok [x]) = Ok [6]%N.
Proof. vm_compute. reflexivity. Qed.

(** The indicator of a suffix with two coordinates over the bits: table of the prover and value at a point. *)
Definition a16 : eqind X16 := mkEqInd X16 2 X2 (els [6; 11]%N) (els [3; 9; 14; 5]%N) (el 7).
Fact eqind_ex : exists table, eqind_table X16 2 a16 (els [0; 0; 0; 0]%N) (els [0; 0; 0; 0]%N) = Ok table /\ eqind_evaluate X16 a16 (els [12; 2]%N) = Ok (mle (fun x => nth x table f0) (els [12; 2]%N)).
Proof.
  eexists. split; [|eapply (eqind_prover_verifier X16 X16_char2 2 a16 (els [0; 0; 0; 0]%N) (els [0; 0; 0; 0]%N)); try reflexivity; try (cbn; lia)].
  - apply (eqind_table_correct X16 2 a16); try reflexivity; try (cbn; lia). intros [|[|[|[|x]]]] H; try reflexivity; try lia. destruct x; reflexivity.
  - intros [|[|[|[|x]]]] H; try reflexivity; try lia. destruct x; reflexivity.
Qed.
Example eqind_ex_values : shown (eqind_table X16 2 a16 (els [0; 0; 0; 0]%N) (els [0; 0; 0; 0]%N)) = Ok [0; 0; 0; 0]%N -> False.
Proof. vm_compute. discriminate. Qed.

(** TowerTensorAlgebra::kappa does not return the logarithm of the extension degree for any variant of the 128-bit tower: an element
    made with [kappa] reports [7 - kappa]. *)
Theorem tensor_kappa_refuted : forall kappa v, kappa <= 7 -> tta_kappa 7 (7 - kappa) = Some v -> v = 7 - kappa /\ v <> kappa.
Proof. intros kappa v H. do 8 (destruct kappa as [|kappa]; [cbn; first [discriminate|intros [= <-]; split; [reflexivity|discriminate]]|]). lia. Qed.

(** *** A reduction of four claims: two about a committed multilinear of bits with 8 values, one about a multilinear over the field
    with 4 elements, and one about a multilinear of 2 bits, fewer than an element of the field holds. *)
Definition P16 (k x : nat) : X16 := match k, x with 0, 0 => el 11 | 0, _ => el 6 | 1, 0 => el 13 | 1, _ => el 2 | _, _ => el 5 end.
Definition oracles16 : list (option oracle) := [Some (mkOracle 3 0 true); Some (mkOracle 2 1 true); Some (mkOracle 1 0 true)].
Definition index16 (id : nat) : option nat := if id <? 3 then Some id else None.
Definition pt (id : nat) : list X16 := match id with 0 => els [3; 7; 9]%N | 1 => els [12; 10]%N | _ => els [14]%N end.
Definition true_eval (id : nat) (p : list X16) : X16 := match id with 1 => mle (unpacked X16 X1 (P16 1)) p | _ => mle (unpacked X16 X2 (P16 id)) p end.
Definition pt0 : list X16 := els [3; 7; 2]%N.
Definition claims16 : list (eclaim X16) := [mkClaim X16 0 (pt 0) (true_eval 0 (pt 0)); mkClaim X16 1 (pt 1) (true_eval 1 (pt 1)); mkClaim X16 2 (pt 2) (true_eval 2 (pt 2)); mkClaim X16 0 pt0 (true_eval 0 pt0)].
Definition partial16 (k : nat) (z : list X16) : list X16 :=
  match k with
  | 1 => map (fun j => sumn (2 ^ length z) (fun x => eqw z x * co X1 j (P16 1 x))%F) (seq 0 2)
  | 2 => map (fun j => sumn (2 ^ length z) (fun x => eqw z x * co X2 j (P16 2 x))%F) (seq 0 2)
  | _ => map (fun j => sumn (2 ^ length z) (fun x => eqw z x * co X2 j (P16 k x))%F) (seq 0 4)
  end.
Definition show_system (s : res (system X16)) := match s with Ok s => Some (map (map bits) (prefix_descs X16 s), map (fun p => (map bits (fst p), snd p)) (suffix_descs X16 s), map fst (claim_descs X16 s), claim_to_prefix X16 s) | _ => None end.
Fact system_ex : show_system (system_new X16 2 oracles16 index16 claims16) =
  Some ([[14; 0]; [3; 7]; [12]]%N, [([], 2); ([9]%N, 2); ([10]%N, 1); ([2]%N, 2)], [(2, 0); (0, 1); (1, 2); (0, 3)], [0; 1; 2; 1]).
Proof. vm_compute. reflexivity. Qed.

(** the result of a run of the prover on the true claims, checked by the verifier of [claims] *)
Definition cs16 : list X16 := els [9; 4; 13; 6]%N.
Definition run16 (claims : list (eclaim X16)) : option (list N * list (nat * nat * nat * N)) :=
  match system_new X16 2 oracles16 index16 claims16, system_new X16 2 oracles16 index16 claims with
  | Ok s, Ok s' => match prun (rs_prove X16 E16 s partial16) cs16 with
    | Ok (_, proof, _) => match vrun (rs_verify X16 E16 s') proof cs16 with
      | Ok (out, [], []) => Some (map bits proof, map (fun c => (sc_n_vars X16 c, sc_committed X16 c, sc_transparent X16 c, bits (sc_sum X16 c))) (rc_claims X16 out))
      | _ => None end
    | _ => None end
  | _, _ => None end.
Fact ring_switch_run : match run16 claims16 with Some (proof, claims) => length proof = 14 /\ map fst claims = [(0, 2, 0); (1, 0, 1); (1, 1, 2); (1, 0, 3)] | None => False end.
Proof. vm_compute. repeat split. Qed.
(** the same proof is rejected if one of the claimed values is changed *)
Fact ring_switch_run_false : run16 (mkClaim X16 0 (pt 0) (el 1 + true_eval 0 (pt 0))%F :: tl claims16) = None.
Proof. vm_compute. reflexivity. Qed.

Lemma E16_some kappa X : E16 kappa = Some X -> exists H, X = tower_ext 2 kappa H.
Proof. unfold E16. destruct (le_dec kappa 2) as [H|]; [|discriminate]. intros [= <-]. eauto. Qed.
(** these claims meet the hypotheses of completeness *)
Fact ring_switch_complete_ex : exists s, system_new X16 2 oracles16 index16 claims16 = Ok s /\
  forall challenges : nat -> X16, exists m out proof, prun (rs_prove X16 E16 s partial16) (map challenges (seq 0 m)) = Ok (out, proof, []) /\
    all_reduced_true X16 P16 out /\ vrun (rs_verify X16 E16 s) proof (map challenges (seq 0 m)) = Ok (out, [], []).
Proof.
  destruct (system_new X16 2 oracles16 index16 claims16) as [s| |] eqn:ES.
  2,3: exfalso; assert (X : show_system (system_new X16 2 oracles16 index16 claims16) = None) by now rewrite ES.
  2,3: rewrite system_ex in X; discriminate.
  exists s. split; [reflexivity|].
  destruct (ring_switch_complete X16 X16_char2 2 E16 oracles16 index16 claims16 s P16 partial16 ES) as [H1 H2].
  - intros o Ho _ Hl. unfold E16. destruct (le_dec (2 - o_level o) 2); [discriminate|lia].
  - assert (G : forall id p, id < 3 -> claim_true X16 2 E16 P16 oracles16 index16 (mkClaim X16 id p (true_eval id p))).
    { intros [|[|[|id]]] p Hid; [| | |lia]; eexists; eexists; eexists; (split; [reflexivity|]); (split; [reflexivity|]); (split; [cbn; reflexivity|]); reflexivity. }
    intros c [<-|[<-|[<-|[<-|[]]]]]; apply G; lia.
  - assert (G : forall id o (X : ext X16 (2 - o_level o)) z, id < 3 -> nth_error oracles16 id = Some (Some o) -> E16 (2 - o_level o) = Some X -> honest_partial X16 X (P16 id) z (partial16 id z)).
    { intros [|[|[|id]]] o X z Hid Ho EX; [| | |lia]; cbn in Ho; injection Ho as <-; cbn in X, EX; injection EX as <-.
      - exists 2. split; [cbn; lia|]. split; [|reflexivity]. intros x j _ Hj. now rewrite Nat.mod_small.
      - exists 1. split; [cbn; lia|]. split; [|reflexivity]. intros x j _ Hj. now rewrite Nat.mod_small.
      - exists 1. split; [cbn; lia|]. split; [|reflexivity]. intros x j _ Hj. cbn in Hj. destruct j as [|[|[|[|j]]]]; try lia; vm_compute; reflexivity. }
    intros c o k X [<-|[<-|[<-|[<-|[]]]]] Ho Hk EX; cbn in Hk; injection Hk as <-; cbn zeta; apply (G _ o X); auto.
  - intros ch. destruct (H1 ch) as (m & out & proof & R). exists m, out, proof. split; [exact R|]. destruct (H2 _ _ _ _ R) as [T V]. split; [exact T|]. specialize (V []). now rewrite app_nil_r in V.
Qed.
