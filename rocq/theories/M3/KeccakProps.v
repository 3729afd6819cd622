(** C83: the Keccak-f gadget and its trace compute Keccak-f[1600]. *)
Require Import Coq.NArith.NArith Coq.Arith.Arith Coq.Lists.List Coq.Bool.Bool Lia.
From Verif Require Import M3.KeccakModel.
Import ListNotations.
Local Close Scope N_scope.
Local Open Scope nat_scope.

(** * Specification: FIPS 202, section 3, for lanes of 64 bits *)
(** [A x y z], for [x, y < 5] and [z < 64] *)
Definition state := nat -> nat -> nat -> bool.
Definition same (A B : state) : Prop := forall x y z, x < 5 -> y < 5 -> z < 64 -> A x y z = B x y z.
(** 3.2.1 *)
Definition parity (A : state) (x z : nat) : bool := xorb (A x 0 z) (xorb (A x 1 z) (xorb (A x 2 z) (xorb (A x 3 z) (A x 4 z)))).
Definition theta (A : state) : state := fun x y z => xorb (A x y z) (xorb (parity A ((x + 4) mod 5) z) (parity A ((x + 1) mod 5) ((z + 63) mod 64))).
(** 3.2.2: the positions visited from (1, 0), with their offsets *)
Fixpoint walk (n t x y : nat) : list (nat * nat * nat) :=
  match n with O => [] | S n => (x, y, (t + 1) * (t + 2) / 2) :: walk n (t + 1) y ((2 * x + 3 * y) mod 5) end.
Definition offset (x y : nat) : nat := fold_right (fun e r => if (fst (fst e) =? x) && (snd (fst e) =? y) then snd e else r) 0 (walk 24 0 1 0).
Definition rho_step (A : state) : state := fun x y z => A x y ((z + (64 - offset x y mod 64)) mod 64).
(** 3.2.3 *)
Definition pi_step (A : state) : state := fun x y z => A ((x + 3 * y) mod 5) x z.
(** 3.2.4 *)
Definition chi (A : state) : state := fun x y z => xorb (A x y z) (xorb (A ((x + 1) mod 5) y z) true && A ((x + 2) mod 5) y z).
(** 3.2.5 *)
Definition lfsr_step (R : list bool) : list bool :=
  let b8 := nth 7 R false in
  [b8; nth 0 R false; nth 1 R false; nth 2 R false; xorb (nth 3 R false) b8; xorb (nth 4 R false) b8; xorb (nth 5 R false) b8; nth 6 R false].
Definition rc (t : nat) : bool := nth 0 (Nat.iter (t mod 255) lfsr_step [true; false; false; false; false; false; false; false]) false.
Definition rc_bit (ir z : nat) : bool := existsb (fun j => (z =? 2 ^ j - 1) && rc (j + 7 * ir)) (seq 0 7).
Definition iota (ir : nat) (A : state) : state := fun x y z => if (x =? 0) && (y =? 0) then xorb (A x y z) (rc_bit ir z) else A x y z.
(** 3.3 and 3.4 *)
Definition round (ir : nat) (A : state) : state := iota ir (chi (pi_step (rho_step (theta A)))).
Definition keccak_f (A : state) : state := fold_left (fun A ir => round ir A) (seq 0 24) A.

(** The bits of a matrix of lanes. *)
Definition bits_of (m : list N) : state := fun x y z => N.testbit (mget 0%N m x y) (N.of_nat z).
(** 25 lanes of 64 bits *)
Definition lanes_ok (m : list N) : Prop := forall x y, (mget 0%N m x y < 2 ^ 64)%N.

(** * Tables *)
Lemma five (P : nat -> Prop) : P 0 -> P 1 -> P 2 -> P 3 -> P 4 -> forall x, x < 5 -> P x.
Proof. intros. do 5 (destruct x as [|x]; [assumption|]). lia. Qed.
Lemma five2 (P : nat -> nat -> Prop) : (True -> P 0 0 /\ P 0 1 /\ P 0 2 /\ P 0 3 /\ P 0 4 /\ P 1 0 /\ P 1 1 /\ P 1 2 /\ P 1 3 /\ P 1 4 /\ P 2 0 /\ P 2 1 /\ P 2 2 /\ P 2 3 /\ P 2 4 /\ P 3 0 /\ P 3 1 /\ P 3 2 /\ P 3 3 /\ P 3 4 /\ P 4 0 /\ P 4 1 /\ P 4 2 /\ P 4 3 /\ P 4 4) ->
  forall x y, x < 5 -> y < 5 -> P x y.
Proof. intros H x y Hx Hy. specialize (H I). revert x Hx. apply five; revert y Hy; apply five; tauto. Qed.
Lemma rho_table x y : x < 5 -> y < 5 -> rho x y = offset x y mod 64.
Proof. revert x y. apply five2. intros _. repeat split; reflexivity. Qed.
Lemma rc_table r z : r < 24 -> z < 64 -> N.testbit (nth r RC 0%N) (N.of_nat z) = rc_bit r z.
Proof.
  intros Hr Hz. assert (H : forallb (fun r => forallb (fun z => Bool.eqb (N.testbit (nth r RC 0%N) (N.of_nat z)) (rc_bit r z)) (seq 0 64)) (seq 0 24) = true) by (vm_compute; reflexivity).
  rewrite forallb_forall in H. specialize (H r). rewrite in_seq in H. specialize (H ltac:(lia)). rewrite forallb_forall in H. specialize (H z). rewrite in_seq in H. apply eqb_prop. apply H. lia.
Qed.
Lemma rc_small r : (nth r RC 0 < 2 ^ 64)%N.
Proof.
  assert (H : forallb (fun v => (v <? 2 ^ 64)%N) RC = true) by (vm_compute; reflexivity). rewrite forallb_forall in H. destruct (Nat.lt_ge_cases r (length RC)) as [LT|GE].
  - apply N.ltb_lt. apply H. now apply nth_In.
  - rewrite nth_overflow by exact GE. reflexivity.
Qed.

(** * Matrices *)
Lemma mget_mod {A} (d : A) m x y : mget d m x y = mget d m (x mod 5) (y mod 5).
Proof. unfold mget. now rewrite !Nat.mod_mod by lia. Qed.
Lemma rget_mod {A} (d : A) m x : rget d m x = rget d m (x mod 5).
Proof. unfold rget. now rewrite !Nat.mod_mod by lia. Qed.
Lemma mod5 x : x mod 5 < 5. Proof. apply Nat.mod_upper_bound. lia. Qed.
Lemma mget_from {A} (d : A) f x y : x < 5 -> y < 5 -> mget d (from_fn f) x y = f x y.
Proof. revert x y. apply five2. intros _. repeat split; reflexivity. Qed.
Lemma rget_row {A} (d : A) f x : x < 5 -> rget d (row_fn f) x = f x.
Proof. revert x. apply five; reflexivity. Qed.
Definition xys : list (nat * nat) := flat_map (fun x => map (pair x) (seq 0 5)) (seq 0 5).
Lemma theta_fold (f : nat -> nat -> N) x y : x < 5 -> y < 5 -> mget 0%N (fold_left (fun a xy => mset a (fst xy) (snd xy) (f (fst xy) (snd xy))) xys (repeat 0%N 25)) x y = f x y.
Proof. revert x y. apply five2. intros _. repeat split; reflexivity. Qed.
Lemma pi_fold (f : nat -> nat -> N) x y : x < 5 -> y < 5 ->
  mget 0%N (fold_left (fun a xy => mset a (snd xy) (2 * fst xy + 3 * snd xy) (f (fst xy) (snd xy))) xys (repeat 0%N 25)) x y = f ((x + 3 * y) mod 5) x.
Proof. revert x y. apply five2. intros _. repeat split; reflexivity. Qed.

(** * Lanes *)
Definition ok64 (v : N) : Prop := forall i, (64 <= i)%N -> N.testbit v i = false.
Lemma ok64_lt v : (v < 2 ^ 64)%N <-> ok64 v.
Proof.
  split.
  - intros H i Hi. destruct (N.eq_dec v 0) as [->|NZ]; [apply N.bits_0|]. apply N.bits_above_log2. apply N.lt_le_trans with 64%N; [|exact Hi]. apply N.log2_lt_pow2; lia.
  - intros H. destruct (N.eq_dec v 0) as [->|NZ]; [reflexivity|]. apply N.log2_lt_pow2; [lia|]. destruct (N.lt_ge_cases (N.log2 v) 64) as [LT|GE]; [exact LT|]. specialize (H _ GE). rewrite N.bit_log2 in H by exact NZ. discriminate.
Qed.
Lemma ok_xor a b : ok64 a -> ok64 b -> ok64 (N.lxor a b).
Proof. intros A B i Hi. now rewrite N.lxor_spec, A, B. Qed.
Lemma ok_and_r a b : ok64 b -> ok64 (N.land a b).
Proof. intros B i Hi. rewrite N.land_spec, B by exact Hi. apply andb_false_r. Qed.
Lemma ok_rotl v k : ok64 v -> ok64 (rotl v k).
Proof.
  intros H i Hi. unfold rotl. rewrite N.lor_spec, N.land_spec, N.ones_spec_high, andb_false_r, N.shiftr_spec' by exact Hi. cbn [orb]. apply H. lia.
Qed.
Lemma rotl_bit v k z : ok64 v -> k < 64 -> z < 64 -> N.testbit (rotl v k) (N.of_nat z) = N.testbit v (N.of_nat ((z + (64 - k)) mod 64)).
Proof.
  intros H Hk Hz. unfold rotl. rewrite N.lor_spec, N.land_spec, N.ones_spec_low, andb_true_r, N.shiftr_spec' by lia. destruct (Nat.lt_ge_cases z k) as [LT|GE].
  - rewrite N.shiftl_spec_low by lia. cbn [orb]. rewrite Nat.mod_small by lia. f_equal. lia.
  - rewrite N.shiftl_spec_high' by lia. rewrite (H (N.of_nat z + N.of_nat (64 - k))%N) by lia. rewrite orb_false_r. replace (z + (64 - k)) with (z - k + 1 * 64) by lia. rewrite Nat.mod_add, Nat.mod_small by lia. f_equal. lia.
Qed.
Lemma not_bit v z : z < 64 -> N.testbit (not64 v) (N.of_nat z) = xorb (N.testbit v (N.of_nat z)) true.
Proof. intros H. unfold not64. now rewrite N.lxor_spec, N.ones_spec_low by lia. Qed.

(** * The specification on equal states *)
Lemma mod64 z : z mod 64 < 64. Proof. apply Nat.mod_upper_bound. lia. Qed.
Lemma round_same r A B : same A B -> same (round r A) (round r B).
Proof.
  intros H. assert (T : same (theta A) (theta B)) by (intros x y z Hx Hy Hz; unfold theta, parity; rewrite !H by (auto using mod5, mod64; lia); reflexivity).
  assert (R : same (rho_step (theta A)) (rho_step (theta B))) by (intros x y z Hx Hy Hz; unfold rho_step; apply T; auto using mod64).
  assert (P : same (pi_step (rho_step (theta A))) (pi_step (rho_step (theta B)))) by (intros x y z Hx Hy Hz; unfold pi_step; apply R; auto using mod5).
  assert (C : same (chi (pi_step (rho_step (theta A)))) (chi (pi_step (rho_step (theta B))))) by (intros x y z Hx Hy Hz; unfold chi; rewrite !P by auto using mod5; reflexivity).
  intros x y z Hx Hy Hz. unfold round, iota. now rewrite C by auto.
Qed.
Lemma rounds_same rs : forall A B, same A B -> same (fold_left (fun A r => round r A) rs A) (fold_left (fun A r => round r A) rs B).
Proof. induction rs as [|r rs IH]; intros A B H; cbn [fold_left]; [exact H|]. apply IH. now apply round_same. Qed.
Lemma same_trans A B C : same A B -> same B C -> same A C.
Proof. intros H K x y z Hx Hy Hz. now rewrite H, K. Qed.

(** * The trace *)
Section Round.
  Variable s : list N.
  Variable r : nat.
  Hypothesis OK : lanes_ok s.
  Notation A := (bits_of s).
  Notation g := (gather s r).
  Local Lemma s_ok x y : ok64 (mget 0%N s x y). Proof. apply ok64_lt. apply OK. Qed.
  Lemma c_ok x : ok64 (rget 0%N (rt_c g) x).
  Proof. rewrite rget_mod. cbn [gather rt_c]. rewrite rget_row by apply mod5. repeat apply ok_xor; apply s_ok. Qed.
  Lemma c_bit x z : N.testbit (rget 0%N (rt_c g) x) (N.of_nat z) = parity A (x mod 5) z.
  Proof. rewrite rget_mod. cbn [gather rt_c]. rewrite rget_row by apply mod5. rewrite !N.lxor_spec. unfold parity, bits_of. now rewrite !xorb_assoc. Qed.
  Lemma d_lane x : x < 5 -> rget 0%N (rt_d g) x = N.lxor (rget 0%N (rt_c g) (x + 4)) (rotl (rget 0%N (rt_c g) (x + 1)) 1).
  Proof. intros Hx. exact (rget_row 0%N (fun x => N.lxor (rget 0%N (rt_c g) (x + 4)) (rotl (rget 0%N (rt_c g) (x + 1)) 1)) x Hx). Qed.
  Lemma d_ok x : ok64 (rget 0%N (rt_d g) x).
  Proof. rewrite rget_mod, d_lane by apply mod5. apply ok_xor; [|apply ok_rotl]; apply c_ok. Qed.
  Lemma d_bit x z : z < 64 -> N.testbit (rget 0%N (rt_d g) x) (N.of_nat z) = xorb (parity A ((x mod 5 + 4) mod 5) z) (parity A ((x mod 5 + 1) mod 5) ((z + 63) mod 64)).
  Proof. intros Hz. rewrite rget_mod, d_lane by apply mod5. rewrite N.lxor_spec, c_bit, rotl_bit, c_bit by (try apply c_ok; lia). reflexivity. Qed.
  Lemma theta_lane x y : x < 5 -> y < 5 -> mget 0%N (rt_theta g) x y = N.lxor (mget 0%N s x y) (rget 0%N (rt_d g) x).
  Proof. intros Hx Hy. exact (theta_fold (fun x y => N.lxor (mget 0%N s x y) (rget 0%N (rt_d g) x)) x y Hx Hy). Qed.
  Lemma theta_ok x y : ok64 (mget 0%N (rt_theta g) x y).
  Proof. rewrite mget_mod, theta_lane by apply mod5. apply ok_xor; [apply s_ok|apply d_ok]. Qed.
  Lemma theta_bit x y z : x < 5 -> y < 5 -> z < 64 -> N.testbit (mget 0%N (rt_theta g) x y) (N.of_nat z) = theta A x y z.
  Proof. intros Hx Hy Hz. rewrite theta_lane by assumption. rewrite N.lxor_spec, d_bit, (Nat.mod_small x) by assumption. reflexivity. Qed.
  Lemma b_lane x y : x < 5 -> y < 5 -> mget 0%N (rt_b g) x y = rotl (mget 0%N (rt_theta g) ((x + 3 * y) mod 5) x) (rho ((x + 3 * y) mod 5) x).
  Proof. intros Hx Hy. exact (pi_fold (fun x y => rotl (mget 0%N (rt_theta g) x y) (rho x y)) x y Hx Hy). Qed.
  Lemma b_ok x y : ok64 (mget 0%N (rt_b g) x y).
  Proof. rewrite mget_mod, b_lane by apply mod5. apply ok_rotl, theta_ok. Qed.
  Lemma b_bit x y z : x < 5 -> y < 5 -> z < 64 -> N.testbit (mget 0%N (rt_b g) x y) (N.of_nat z) = pi_step (rho_step (theta A)) x y z.
  Proof.
    intros Hx Hy Hz. rewrite b_lane by assumption. rewrite rho_table by (auto using mod5). rewrite rotl_bit by (auto using theta_ok, mod64). rewrite theta_bit by auto using mod5, mod64. reflexivity.
  Qed.
  Lemma out_lane x y : x < 5 -> y < 5 -> mget 0%N (rt_out g) x y =
    let chi := N.lxor (mget 0%N (rt_b g) x y) (N.land (not64 (mget 0%N (rt_b g) (x + 1) y)) (mget 0%N (rt_b g) (x + 2) y)) in if (x =? 0) && (y =? 0) then N.lxor chi (nth r RC 0%N) else chi.
  Proof. intros Hx Hy. cbn [gather rt_out]. rewrite mget_from by assumption. reflexivity. Qed.
  Lemma out_ok : lanes_ok (rt_out g).
  Proof.
    intros x y. apply ok64_lt. rewrite mget_mod, out_lane by apply mod5. cbv zeta. assert (K : ok64 (N.lxor (mget 0%N (rt_b g) (x mod 5) (y mod 5)) (N.land (not64 (mget 0%N (rt_b g) (x mod 5 + 1) (y mod 5))) (mget 0%N (rt_b g) (x mod 5 + 2) (y mod 5))))) by (apply ok_xor; [apply b_ok|apply ok_and_r, b_ok]).
    destruct (_ && _); [|exact K]. apply ok_xor; [exact K|]. apply ok64_lt, rc_small.
  Qed.
  (** C83, one round: [gather] computes the round function. *)
  Theorem gather_correct : r < 24 -> same (bits_of (rt_out g)) (round r A).
  Proof.
    intros Hr x y z Hx Hy Hz. unfold bits_of at 1. rewrite out_lane by assumption. cbv zeta.
    assert (E : N.testbit (N.lxor (mget 0%N (rt_b g) x y) (N.land (not64 (mget 0%N (rt_b g) (x + 1) y)) (mget 0%N (rt_b g) (x + 2) y))) (N.of_nat z) = chi (pi_step (rho_step (theta A))) x y z).
    { rewrite N.lxor_spec, N.land_spec, not_bit by assumption. rewrite (mget_mod _ _ (x + 1)), (mget_mod _ _ (x + 2)), (Nat.mod_small y) by assumption. rewrite !b_bit by auto using mod5. reflexivity. }
    unfold round, iota. destruct (_ && _); [|exact E]. rewrite N.lxor_spec, E, rc_table by assumption. reflexivity.
  Qed.
End Round.

Lemma traces_nth : forall n k s i, i < n -> nth i (traces s (seq k n)) no_trace = gather (rt_in (nth i (traces s (seq k n)) no_trace)) (k + i) /\
  rt_in (nth 0 (traces s (seq k n)) no_trace) = s /\ (S i < n -> rt_in (nth (S i) (traces s (seq k n)) no_trace) = rt_out (nth i (traces s (seq k n)) no_trace)).
Proof.
  induction n as [|n IH]; intros k s i Hi; [lia|]. cbn [seq traces]. cbv zeta. cbn [nth]. split; [|split; [reflexivity|]].
  - destruct i as [|i]; [now rewrite Nat.add_0_r|]. rewrite Nat.add_succ_r. apply (IH (S k)). lia.
  - intros H. destruct i as [|i]; [apply (IH (S k) _ 0); lia|]. apply (IH (S k)); lia.
Qed.
Lemma traces_round s i : lanes_ok s -> i < 24 -> let t := nth i (keccakf_trace s) no_trace in
  lanes_ok (rt_in t) /\ t = gather (rt_in t) i /\ same (bits_of (rt_in t)) (fold_left (fun A r => round r A) (seq 0 i) (bits_of s)).
Proof.
  intros OK. unfold keccakf_trace. induction i as [|i IH]; intros Hi; cbv zeta; destruct (traces_nth 24 0 s) with (i := 0) as (_ & E0 & _); try lia.
  - rewrite E0. split; [exact OK|]. split; [|intros x y z _ _ _; reflexivity]. destruct (traces_nth 24 0 s 0 Hi) as (E & _ & _). rewrite E0 in E. exact E.
  - destruct (IH ltac:(lia)) as (O & G & S). cbv zeta in *. destruct (traces_nth 24 0 s i ltac:(lia)) as (_ & _ & E). specialize (E Hi). destruct (traces_nth 24 0 s (Datatypes.S i) Hi) as (G' & _ & _). split; [|split; [exact G'|]].
    + rewrite E, G. now apply out_ok.
    + rewrite E, G. eapply same_trans; [apply gather_correct; [exact O|lia]|]. rewrite (seq_S i 0), fold_left_app. cbn [fold_left Nat.add]. now apply round_same.
Qed.
(** C83, the trace: its first state is the input and its last the permutation of it. *)
Theorem keccakf_trace_correct s : lanes_ok s -> pt_input (keccakf_trace s) = s /\ same (bits_of (pt_output (keccakf_trace s))) (keccak_f (bits_of s)) /\ lanes_ok (pt_output (keccakf_trace s)).
Proof.
  intros OK. split; [apply (traces_nth 24 0 s 0); lia|]. unfold pt_output. destruct (traces_round s 23 OK ltac:(lia)) as (O & G & S). cbv zeta in *. change (24 - 1) with 23. rewrite G. split; [|now apply out_ok].
  eapply same_trans; [apply gather_correct; [exact O|lia]|]. unfold keccak_f. change (seq 0 24) with (seq 0 23 ++ [23]). rewrite fold_left_app. cbn [fold_left]. now apply round_same.
Qed.

(** * The gadget *)
(** track [t] of a matrix of columns *)
Definition track (t : nat) (m : list col) : state := fun x y z => mget zero m x y (64 * t + z).
Lemma rotated_at k a t z : z < 64 -> rotated 6 k a (64 * t + z) = a (64 * t + (z + (64 - k)) mod 64).
Proof.
  intros Hz. unfold rotated. change (2 ^ 6) with 64. cbv zeta. replace ((64 * t + z) mod 64) with z; [f_equal; lia|]. replace (64 * t + z) with (z + t * 64) by lia. now rewrite Nat.mod_add, Nat.mod_small by lia.
Qed.
Section Batch.
  Variables sin sout : list col.
  Variable k : nat.
  Notation B := (round_batch sin sout k).
  Notation A t := (track t sin).
  Lemma bc_bit x t z : rget zero (ba_c B) x (64 * t + z) = parity (A t) (x mod 5) z.
  Proof. rewrite rget_mod. cbn [round_batch ba_c]. rewrite rget_row by apply mod5. cbn [seq map sum_expr fold_left]. unfold plus, parity, track. now rewrite !xorb_assoc. Qed.
  Lemma bcs_bit x t z : z < 64 -> rget zero (ba_c_shift B) x (64 * t + z) = parity (A t) (x mod 5) ((z + 63) mod 64).
  Proof. intros Hz. rewrite rget_mod. cbn [round_batch ba_c_shift]. rewrite rget_row by apply mod5. rewrite rotated_at by exact Hz. change (64 - 1) with 63. pose proof (bc_bit (x mod 5) t ((z + 63) mod 64)) as E. cbn [round_batch ba_c] in E. now rewrite E, Nat.mod_mod by lia. Qed.
  Lemma bd_bit x t z : z < 64 -> rget zero (ba_d B) x (64 * t + z) = xorb (parity (A t) ((x mod 5 + 4) mod 5) z) (parity (A t) ((x mod 5 + 1) mod 5) ((z + 63) mod 64)).
  Proof.
    intros Hz. rewrite rget_mod. cbn [round_batch ba_d]. rewrite rget_row by apply mod5. unfold plus at 1. pose proof (bc_bit (x mod 5 + 4) t z) as E1. pose proof (bcs_bit (x mod 5 + 1) t z Hz) as E2. cbn [round_batch ba_c ba_c_shift] in E1, E2. now rewrite E1, E2.
  Qed.
  Lemma btheta_bit x y t z : x < 5 -> y < 5 -> z < 64 -> mget zero (ba_theta B) x y (64 * t + z) = theta (A t) x y z.
  Proof.
    intros Hx Hy Hz. cbn [round_batch ba_theta]. rewrite mget_from by assumption. unfold plus at 1. pose proof (bd_bit x t z Hz) as E. cbn [round_batch ba_d] in E. rewrite E, (Nat.mod_small x) by assumption. reflexivity.
  Qed.
  Lemma pi_index x y : x < 5 -> y < 5 -> (3 * ((y + 2 * x) mod 5)) mod 5 = (x + 3 * y) mod 5.
  Proof. revert x y. apply five2. intros _. repeat split; reflexivity. Qed.
  Lemma bb_bit x y t z : x < 5 -> y < 5 -> z < 64 -> mget zero (ba_b B) x y (64 * t + z) = pi_step (rho_step (theta (A t))) x y z.
  Proof.
    intros Hx Hy Hz. cbn [round_batch ba_b]. rewrite mget_from by assumption. destruct ((x =? 0) && (y =? 0)) eqn:EZ.
    - apply andb_true_iff in EZ. destruct EZ as [E1 E2]. apply Nat.eqb_eq in E1, E2. subst x y. pose proof (btheta_bit 0 0 t z Hx Hy Hz) as E. cbn [round_batch ba_theta] in E. rewrite E. unfold pi_step, rho_step.
      change ((0 + 3 * 0) mod 5) with 0. change (64 - offset 0 0 mod 64) with (1 * 64). rewrite Nat.mod_add, Nat.mod_small by lia. reflexivity.
    - cbv zeta. rewrite rotated_at, pi_index, rho_table by (auto using mod5). pose proof (btheta_bit ((x + 3 * y) mod 5) x t ((z + (64 - offset ((x + 3 * y) mod 5) x mod 64)) mod 64) (mod5 _) Hx (mod64 _)) as E. cbn [round_batch ba_theta] in E. rewrite E. reflexivity.
  Qed.
  (** C83, a batch: its constraints hold exactly when every track is a round. *)
  Theorem batch_correct : k < 3 -> (all_zero (ba_zero B) <-> forall t, t < 8 -> same (track t sout) (round (nth_round_per_batch k t) (A t))).
  Proof.
    intros Hk. assert (Z : all_zero (ba_zero B) <-> forall x y t z, x < 5 -> y < 5 -> t < 8 -> z < 64 -> plus (mget zero sout x y) (let chi := plus (mget zero (ba_b B) x y) (times (plus (mget zero (ba_b B) (x + 1) y) (fun _ => true)) (mget zero (ba_b B) (x + 2) y)) in
        if (x =? 0) && (y =? 0) then plus (round_consts k) chi else chi) (64 * t + z) = false).
    { cbn [round_batch ba_zero ba_b]. split.
      - intros H x y t z Hx Hy Ht Hz. apply H; [|lia]. apply in_flat_map. exists x. split; [apply in_seq; lia|]. apply in_map_iff. exists y. split; [reflexivity|apply in_seq; lia].
      - intros H c p HI Hp. apply in_flat_map in HI. destruct HI as (x & Hx & HI). apply in_map_iff in HI. destruct HI as (y & <- & Hy). apply in_seq in Hx, Hy.
        specialize (H x y (p / 64) (p mod 64) ltac:(lia) ltac:(lia)). rewrite <- Nat.div_mod in H by lia. apply H; [apply Nat.div_lt_upper_bound; lia|apply mod64]. }
    rewrite Z. clear Z.
    assert (ONE : forall x y t z, x < 5 -> y < 5 -> t < 8 -> z < 64 -> (let chi := plus (mget zero (ba_b B) x y) (times (plus (mget zero (ba_b B) (x + 1) y) (fun _ => true)) (mget zero (ba_b B) (x + 2) y)) in
        if (x =? 0) && (y =? 0) then plus (round_consts k) chi else chi) (64 * t + z) = round (nth_round_per_batch k t) (A t) x y z).
    { intros x y t z Hx Hy Ht Hz. cbv zeta. set (ch := plus (mget zero (ba_b B) x y) _). assert (E : ch (64 * t + z) = chi (pi_step (rho_step (theta (A t)))) x y z).
      { unfold ch, plus, times. rewrite (mget_mod _ _ (x + 1)), (mget_mod _ _ (x + 2)), (Nat.mod_small y) by assumption. rewrite !bb_bit by auto using mod5. reflexivity. }
      unfold round, iota. destruct (_ && _); [|exact E]. unfold plus at 1. rewrite E, xorb_comm. f_equal. unfold round_consts.
      replace ((64 * t + z) / 64) with t by (replace (64 * t + z) with (z + t * 64) by lia; rewrite Nat.div_add, Nat.div_small; lia). replace ((64 * t + z) mod 64) with z by (replace (64 * t + z) with (z + t * 64) by lia; rewrite Nat.mod_add, Nat.mod_small; lia).
      apply rc_table; [unfold nth_round_per_batch; lia|exact Hz]. }
    split.
    - intros H t Ht x y z Hx Hy Hz. specialize (H x y t z Hx Hy Ht Hz). unfold plus at 1 in H. rewrite ONE in H by assumption. apply xorb_eq in H. exact H.
    - intros H x y t z Hx Hy Ht Hz. unfold plus at 1. rewrite ONE by assumption. rewrite <- (H t Ht x y z Hx Hy Hz). apply xorb_nilpotent.
  Qed.
End Batch.

Lemma bits_value_bit g k z : N.testbit (bits_value g k) (N.of_nat z) = (z <? k) && g z.
Proof.
  induction k as [|k IH]; cbn [bits_value]; [apply N.bits_0|]. rewrite N.lor_spec, IH. destruct (Nat.lt_trichotomy z k) as [H|[->|H]].
  - rewrite (proj2 (Nat.ltb_lt z k)), (proj2 (Nat.ltb_lt z (S k))) by lia. destruct (g k); [|rewrite N.bits_0; apply orb_false_r]. rewrite N.shiftl_spec_low by lia. apply orb_false_r.
  - rewrite Nat.ltb_irrefl, (proj2 (Nat.ltb_lt k (S k))) by lia. cbn [andb orb]. destruct (g k); [|apply N.bits_0]. rewrite N.shiftl_spec_high', N.sub_diag by lia. reflexivity.
  - rewrite (proj2 (Nat.ltb_ge z k)), (proj2 (Nat.ltb_ge z (S k))) by lia. cbn [andb orb]. destruct (g k); [|apply N.bits_0]. rewrite N.shiftl_spec_high' by lia. apply N.bits_above_log2. change (N.log2 1) with 0%N. lia.
Qed.
Lemma bits_value_ok g k : k <= 64 -> ok64 (bits_value g k).
Proof. intros Hk i Hi. rewrite <- (N2Nat.id i), bits_value_bit. rewrite (proj2 (Nat.ltb_ge _ _)) by lia. reflexivity. Qed.
Lemma packed_bit c t z : z < 64 -> N.testbit (packed c t) (N.of_nat z) = c (64 * t + z).
Proof. intros H. unfold packed. rewrite bits_value_bit, (proj2 (Nat.ltb_lt _ _)) by exact H. reflexivity. Qed.
Lemma packed_eq c c' t t' : packed c t = packed c' t' <-> forall z, z < 64 -> c (64 * t + z) = c' (64 * t' + z).
Proof.
  split.
  - intros E z Hz. now rewrite <- !packed_bit, E.
  - intros H. apply N.bits_inj. intros i. destruct (N.lt_ge_cases i 64) as [LT|GE]; [|unfold packed; rewrite !bits_value_ok by (auto; lia); reflexivity].
    rewrite <- (N2Nat.id i), !packed_bit by lia. apply H. lia.
Qed.
Lemma links sin o2 : (forall x y t, x < 5 -> y < 5 -> t < 8 -> link sin o2 x y t = 0%N) <-> forall t, t < 7 -> same (track t o2) (track (t + 1) sin).
Proof.
  split.
  - intros H t Ht x y z Hx Hy Hz. specialize (H x y t Hx Hy ltac:(lia)). unfold link, link_sel, next_in in H. rewrite (proj2 (Nat.ltb_lt t 7)), (proj2 (Nat.ltb_lt (t + 1) 8)) in H by lia. apply N.lxor_eq in H. rewrite packed_eq in H. now apply H.
  - intros H x y t Hx Hy Ht. unfold link, link_sel, next_in. destruct (t <? 7) eqn:E; [|reflexivity]. apply Nat.ltb_lt in E. rewrite (proj2 (Nat.ltb_lt (t + 1) 8)) by lia. assert (Q : packed (mget zero o2 x y) t = packed (mget zero sin x y) (t + 1)) by (apply packed_eq; intros z Hz; now apply (H t E x y z)). rewrite Q. apply N.lxor_nilpotent.
Qed.

(** C83, soundness of the gadget: on a row where its constraints hold, the output is the permutation of the input. *)
Theorem keccakf_sound sin o0 o1 o2 : kf_holds sin o0 o1 o2 -> same (bits_of (kf_output o2)) (keccak_f (bits_of (kf_input sin))).
Proof.
  intros (H0 & H1 & H2 & HL). rewrite batch_correct in H0, H1, H2 by lia. rewrite links in HL.
  assert (IN : same (bits_of (kf_input sin)) (track 0 sin)) by (intros x y z Hx Hy Hz; unfold bits_of, kf_input; rewrite mget_from, packed_bit by assumption; reflexivity).
  assert (OUT : same (bits_of (kf_output o2)) (track 7 o2)) by (intros x y z Hx Hy Hz; unfold bits_of, kf_output; rewrite mget_from, packed_bit by assumption; reflexivity).
  assert (ST : forall t, t < 8 -> same (track t o2) (fold_left (fun A r => round r A) [3 * t; 3 * t + 1; 3 * t + 2] (track t sin))).
  { intros t Ht. cbn [fold_left]. unfold nth_round_per_batch in *. specialize (H0 t Ht). specialize (H1 t Ht). specialize (H2 t Ht). replace (t * 3 + 0) with (3 * t) in H0 by lia. replace (t * 3 + 1) with (3 * t + 1) in H1 by lia. replace (t * 3 + 2) with (3 * t + 2) in H2 by lia.
    eapply same_trans; [exact H2|]. apply round_same. eapply same_trans; [exact H1|]. apply round_same. exact H0. }
  assert (ALL : forall t, t < 8 -> same (track t o2) (fold_left (fun A r => round r A) (seq 0 (3 * t + 3)) (bits_of (kf_input sin)))).
  { induction t as [|t IH]; intros Ht.
    - eapply same_trans; [apply (ST 0 Ht)|]. apply rounds_same. intros x y z Hx Hy Hz. symmetry. now apply IN.
    - eapply same_trans; [apply (ST (S t) Ht)|]. replace (3 * S t + 3) with ((3 * t + 3) + 3) by lia. rewrite seq_app, fold_left_app. replace (seq (0 + (3 * t + 3)) 3) with [3 * S t; 3 * S t + 1; 3 * S t + 2] by (cbn [seq]; repeat (f_equal; try lia)).
      apply rounds_same. intros x y z Hx Hy Hz. rewrite <- (IH ltac:(lia) x y z Hx Hy Hz). symmetry. rewrite (HL t ltac:(lia) x y z Hx Hy Hz). now replace (t + 1) with (S t) by lia. }
  eapply same_trans; [exact OUT|]. apply (ALL 7). lia.
Qed.

(** * The gadget's witness *)
Lemma at_track f t z : z < 64 -> of_lanes f (64 * t + z) = N.testbit (f t) (N.of_nat z).
Proof.
  intros Hz. unfold of_lanes. replace ((64 * t + z) / 64) with t by (replace (64 * t + z) with (z + t * 64) by lia; rewrite Nat.div_add, Nat.div_small; lia).
  replace ((64 * t + z) mod 64) with z by (replace (64 * t + z) with (z + t * 64) by lia; rewrite Nat.mod_add, Nat.mod_small; lia). reflexivity.
Qed.
Lemma split_pos (P : nat -> Prop) : (forall t z, t < 8 -> z < 64 -> P (64 * t + z)) -> forall p, p < 512 -> P p.
Proof. intros H p Hp. rewrite (Nat.div_mod p 64) by lia. apply H; [apply Nat.div_lt_upper_bound; lia|apply mod64]. Qed.
Section Populate.
  Variable s : list N.
  Hypothesis OK : lanes_ok s.
  Notation ts := (keccakf_trace s).
  Lemma pop_in_track k t : same (track t (pop_in ts k)) (bits_of (rt_in (lens ts k t))).
  Proof. intros x y z Hx Hy Hz. unfold track, pop_in. now rewrite mget_from, at_track by assumption. Qed.
  Lemma pop_out_track k t : same (track t (pop_out ts k)) (bits_of (rt_out (lens ts k t))).
  Proof. intros x y z Hx Hy Hz. unfold track, pop_out. now rewrite mget_from, at_track by assumption. Qed.
  Lemma lens_round k t : k < 3 -> t < 8 -> lanes_ok (rt_in (lens ts k t)) /\ lens ts k t = gather (rt_in (lens ts k t)) (nth_round_per_batch k t) /\
    same (bits_of (rt_out (lens ts k t))) (round (nth_round_per_batch k t) (bits_of (rt_in (lens ts k t)))).
  Proof.
    intros Hk Ht. assert (R : nth_round_per_batch k t < 24) by (unfold nth_round_per_batch; lia). destruct (traces_round s _ OK R) as (O & G & _). cbv zeta in *. unfold lens. split; [exact O|]. split; [exact G|].
    rewrite G at 1. now apply gather_correct.
  Qed.
  Lemma lens_next i : S i < 24 -> rt_in (nth (S i) ts no_trace) = rt_out (nth i ts no_trace).
  Proof. intros H. unfold keccakf_trace. now apply (traces_nth 24 0 s i); [lia|]. Qed.
  Lemma same_sym A B : same A B -> same B A.
  Proof. intros H x y z Hx Hy Hz. symmetry. now apply H. Qed.
  Lemma batch_holds k sin : k < 3 -> (forall t, t < 8 -> same (track t sin) (bits_of (rt_in (lens ts k t)))) -> all_zero (ba_zero (round_batch sin (pop_out ts k) k)).
  Proof.
    intros Hk H. rewrite batch_correct by exact Hk. intros t Ht. eapply same_trans; [apply pop_out_track|]. eapply same_trans; [apply (lens_round k t Hk Ht)|]. apply round_same, same_sym. now apply H.
  Qed.
  Lemma chained k t : k < 2 -> t < 8 -> same (track t (pop_out ts k)) (bits_of (rt_in (lens ts (S k) t))).
  Proof. intros Hk Ht. eapply same_trans; [apply pop_out_track|]. unfold lens, nth_round_per_batch. rewrite Nat.add_succ_r, lens_next by lia. intros x y z _ _ _. reflexivity. Qed.
  (** C83, completeness: what [populate] writes satisfies the constraints, its input is the given state, its output the permutation of it. *)
  Theorem keccakf_complete : let sin := pop_in ts 0 in let out := pop_out ts 2 in
    kf_holds sin (pop_out ts 0) (pop_out ts 1) out /\ same (bits_of (kf_input sin)) (bits_of s) /\ same (bits_of (kf_output out)) (keccak_f (bits_of s)) /\ same (bits_of (kf_output out)) (bits_of (pt_output ts)).
  Proof.
    cbv zeta. assert (K : kf_holds (pop_in ts 0) (pop_out ts 0) (pop_out ts 1) (pop_out ts 2)).
    { split; [|split; [|split]].
      - apply batch_holds; [lia|]. intros. apply pop_in_track.
      - apply batch_holds; [lia|]. intros t Ht. apply (chained 0); lia.
      - apply batch_holds; [lia|]. intros t Ht. apply (chained 1); lia.
      - apply links. intros t Ht. eapply same_trans; [apply pop_out_track|]. apply same_sym. eapply same_trans; [apply pop_in_track|]. unfold lens, nth_round_per_batch. replace ((t + 1) * 3 + 0) with (S (t * 3 + 2)) by lia. rewrite lens_next by lia. intros x y z _ _ _. reflexivity. }
    assert (I : same (bits_of (kf_input (pop_in ts 0))) (bits_of s)).
    { intros x y z Hx Hy Hz. unfold bits_of at 1, kf_input. rewrite mget_from, packed_bit by assumption. change (track 0 (pop_in ts 0) x y z = bits_of s x y z). rewrite (pop_in_track 0 0 x y z Hx Hy Hz). unfold lens, nth_round_per_batch. cbn [Nat.mul Nat.add]. destruct (keccakf_trace_correct s OK) as (E & _ & _). unfold pt_input in E. now rewrite E. }
    assert (O : same (bits_of (kf_output (pop_out ts 2))) (keccak_f (bits_of s))) by (exact (same_trans _ _ _ (keccakf_sound _ _ _ _ K) (rounds_same (seq 0 24) _ _ I))).
    split; [exact K|]. split; [exact I|]. split; [exact O|]. eapply same_trans; [exact O|]. apply same_sym. apply (keccakf_trace_correct s OK).
  Qed.
  Lemma parity_same A B x z : same A B -> x < 5 -> z < 64 -> parity A x z = parity B x z.
  Proof. intros H Hx Hz. unfold parity. rewrite !H by lia. reflexivity. Qed.
  Lemma theta_same A B : same A B -> same (theta A) (theta B).
  Proof. intros H x y z Hx Hy Hz. unfold theta, parity. rewrite !H by (auto using mod5, mod64; lia). reflexivity. Qed.
  (** C83: the derived columns [populate] writes are those the table defines. *)
  Theorem keccakf_columns k p : k < 3 -> p < 512 -> let B := round_batch (pop_in ts k) (pop_out ts k) k in
    (forall x, x < 5 -> rget zero (pop_c ts k) x p = rget zero (ba_c B) x p /\ rget zero (pop_c_shift ts k) x p = rget zero (ba_c_shift B) x p /\ rget zero (pop_d ts k) x p = rget zero (ba_d B) x p) /\
    (forall x y, x < 5 -> y < 5 -> mget zero (pop_theta ts k) x y p = mget zero (ba_theta B) x y p /\ mget zero (pop_b ts k) x y p = mget zero (ba_b B) x y p) /\
    pop_rc ts k p = round_consts k p /\
    (forall x y t, x < 5 -> y < 5 -> t < 8 -> pop_next ts x y t = next_in (pop_in ts 0) x y t).
  Proof.
    intros Hk Hp. revert p Hp. apply split_pos. intros t z Ht Hz. cbv zeta. destruct (lens_round k t Hk Ht) as (O & G & _). pose proof (pop_in_track k t) as S.
    split; [|split; [|split]].
    - intros x Hx. rewrite bc_bit, bcs_bit, bd_bit by assumption. unfold pop_c, pop_c_shift, pop_d. rewrite !rget_row, !at_track by assumption. rewrite G.
      rewrite rotl_bit by (try apply c_ok; auto; lia). rewrite !c_bit, d_bit by assumption. change (64 - 1) with 63. rewrite !(Nat.mod_small x) by assumption.
      rewrite !(parity_same _ _ _ _ S) by auto using mod5, mod64. repeat split.
    - intros x y Hx Hy. rewrite btheta_bit, bb_bit by assumption. unfold pop_theta, pop_b. rewrite !mget_from, !at_track by assumption. rewrite G, theta_bit, b_bit by assumption. unfold pi_step, rho_step. rewrite !(theta_same _ _ S) by auto using mod5, mod64. repeat split.
    - unfold pop_rc. rewrite at_track by assumption. rewrite G. cbn [gather rt_rc]. change (round_consts k (64 * t + z)) with (of_lanes (fun t => nth (nth_round_per_batch k t) RC 0%N) (64 * t + z)). now rewrite at_track by assumption.
    - intros x y t' Hx Hy Ht'. unfold pop_next, next_in. destruct (t' <? 7) eqn:E; [apply Nat.ltb_lt in E; rewrite (proj2 (Nat.ltb_lt _ _)) by lia|apply Nat.ltb_ge in E; rewrite (proj2 (Nat.ltb_ge _ _)) by lia; reflexivity].
      destruct (lens_round 0 (t' + 1) ltac:(lia) ltac:(lia)) as (O' & _ & _). apply N.bits_inj. intros i. destruct (N.lt_ge_cases i 64) as [LT|GE].
      + rewrite <- (N2Nat.id i), packed_bit by lia. symmetry. apply (pop_in_track 0 (t' + 1) x y (N.to_nat i)); lia.
      + unfold packed. rewrite bits_value_ok by (auto; lia). apply (proj1 (ok64_lt _) (O' x y)). exact GE.
  Qed.
End Populate.

(** * The zero state (test_vector.rs) *)
Lemma zero_lanes : lanes_ok (repeat 0%N 25).
Proof. intros x y. unfold mget. rewrite nth_repeat. reflexivity. Qed.
Fact zero_vector : firstn 5 (pt_output (keccakf_trace (repeat 0%N 25))) = [0xF1258F7940E1DDE7; 0x84D5CCF933C0478A; 0xD598261EA65AA9EE; 0xBD1547306F80494D; 0x8B284E056253D057]%N.
Proof. vm_compute. reflexivity. Qed.
Fact zero_gadget : kf_holds (pop_in (keccakf_trace (repeat 0%N 25)) 0) (pop_out (keccakf_trace (repeat 0%N 25)) 0) (pop_out (keccakf_trace (repeat 0%N 25)) 1) (pop_out (keccakf_trace (repeat 0%N 25)) 2).
Proof. apply (keccakf_complete _ zero_lanes). Qed.
Fact zero_bit : keccak_f (bits_of (repeat 0%N 25)) 0 0 0 = true /\ keccak_f (bits_of (repeat 0%N 25)) 0 0 3 = false.
Proof. destruct (keccakf_trace_correct _ zero_lanes) as (_ & E & _). rewrite <- !E by lia. vm_compute. split; reflexivity. Qed.
