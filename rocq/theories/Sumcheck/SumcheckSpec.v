(** Specification of sumcheck claims, independent of the protocols.

    A multilinear polynomial in n variables is given by its table of [2^n] values on the hypercube
    (Math/MleSpec.v).  A composite claim says that the sum over the hypercube of a composition of
    the tables has a given value. *)
Require Import Coq.Arith.Arith Coq.Lists.List Coq.Bool.Bool.
From Verif Require Import Base.Fld Base.Lists Base.Sums Base.Poly Math.MleSpec Sumcheck.SumcheckModel.
Import ListNotations.

Section Spec.
  Variable F : field.
  Local Open Scope fld_scope.

  Definition val (r : res F) : F := match r with Ok v => v | _ => 0 end.

  (** the points [a + t b] *)
  Definition aline (a b : list F) (t : F) : list F := map (fun xy => fst xy + t * snd xy) (combine a b).

  (** Two queries agree on the variables marked as used. *)
  Definition agree_on (used : list bool) (q q' : list F) : Prop :=
    forall i, nth i used false = true -> nth i q 0 = nth i q' 0.

  (** A composition polynomial: it evaluates exactly on queries of the right length; on a line it is a
      polynomial of degree at most [c_deg] whose top coefficient is given by the leading term; it does
      not depend on variables that are not used. *)
  Definition comp_ok (c : comp F) : Prop :=
    (forall q, length q <> c_nv c -> c_eval c q = Err) /\
    (forall q, length q = c_nv c -> exists v, c_eval c q = Ok v) /\
    (forall a b, length a = c_nv c -> length b = c_nv c ->
       exists coeffs, length coeffs = S (c_deg c) /\
         (forall t, c_eval c (aline a b t) = Ok (peval coeffs t)) /\
         c_lead c b = Ok (nth (c_deg c) coeffs 0)) /\
    (length (c_used c) = c_nv c /\
     forall q q', length q = c_nv c -> length q' = c_nv c -> agree_on (c_used c) q q' ->
       c_eval c q = c_eval c q' /\ c_lead c q = c_lead c q').

  (** A claim together with the multilinear polynomials it is about. *)
  Definition inst : Type := (claim F * list (nat -> F))%type.

  Definition inst_ok (i : inst) : Prop :=
    length (snd i) = cl_m (fst i) /\
    forall cs, In cs (cl_sums (fst i)) -> comp_ok (fst cs) /\ c_nv (fst cs) = cl_m (fst i).

  (** The sum over the hypercube. *)
  Definition true_sum (c : comp F) (n : nat) (ms : list (nat -> F)) : F :=
    sumn (2 ^ n) (fun x => val (c_eval c (map (fun m => m x) ms))).

  Definition claim_true (i : inst) : Prop :=
    forall cs, In cs (cl_sums (fst i)) -> snd cs = true_sum (fst cs) (cl_n (fst i)) (snd i).

  (** The values of the multilinears of an instance at a point. *)
  Definition mvals (i : inst) (p : list F) : list F := map (fun m => mle m p) (snd i).

  (** The point given by the round challenges [p]: round i fixes variable i, or the i-th variable from
      the top with evaluation order high-to-low. *)
  Definition pt (o : order) (p : list F) : list F := match o with LowToHigh => p | HighToLow => rev p end.

  (** The value at [x] of the round polynomial of an instance after rounds with challenges [p], when [k]
      variables remain besides that of the round: the composites are mixed with the powers of [a]
      (documentation of [SumcheckProver::execute]). *)
  Definition round_value (o : order) (i : inst) (a : F) (p : list F) (x : F) (k : nat) : F :=
    sumn (2 ^ k) (fun v => peval (map (fun cs => val (c_eval (fst cs) (mvals i (pt o (p ++ x :: vertex k v)))))
                                      (cl_sums (fst i))) a).

  (** The point at which [batch_verify] evaluates the multilinears of a claim with fewer variables
      than rounds: the challenges of the last rounds.  With evaluation order high-to-low the
      returned challenges are reversed, so these are the first ones. *)
  Definition suffix_point (o : order) (n : nat) (chal : list F) : list F :=
    match o with
    | LowToHigh => skipn (length chal - n) chal
    | HighToLow => firstn n chal
    end.

  (** The prover's claimed evaluations are those of the multilinears. *)
  Definition truthful (o : order) (insts : list inst) (out : list F * list (list F)) : Prop :=
    snd out = map (fun i => mvals i (suffix_point o (cl_n (fst i)) (fst out))) insts.

  (** Front-loaded batching shares the challenges of the first rounds. *)
  Definition prefix_point (o : order) (n : nat) (chal : list F) : list F :=
    match o with
    | LowToHigh => firstn n chal
    | HighToLow => rev (firstn n chal)
    end.

  Definition truthful_front (o : order) (insts : list inst) (out : list F * list (list F)) : Prop :=
    snd out = map (fun i => mvals i (prefix_point o (cl_n (fst i)) (fst out))) insts.

  (** Sizes that enter the soundness error. *)
  Definition n_composites (insts : list inst) : nat := list_sum (map (fun i => length (cl_sums (fst i))) insts).
  Definition max_degree (insts : list inst) : nat :=
    fold_right Nat.max 0%nat (map (fun i => max_individual_degree (fst i)) insts).
  Definition max_vars (insts : list inst) : nat := fold_right Nat.max 0%nat (map (fun i => cl_n (fst i)) insts).
End Spec.

Arguments val {_} _.
Arguments aline {_} _ _ _.
Arguments agree_on {_} _ _ _.
Arguments comp_ok {_} _.
Arguments inst_ok {_} _.
Arguments true_sum {_} _ _ _.
Arguments claim_true {_} _.
Arguments mvals {_} _ _.
Arguments pt {_} _ _.
Arguments round_value {_} _ _ _ _ _ _.
Arguments suffix_point {_} _ _ _.
Arguments truthful {_} _ _ _.
Arguments prefix_point {_} _ _ _.
Arguments truthful_front {_} _ _ _.
Arguments n_composites {_} _.
Arguments max_degree {_} _.
Arguments max_vars {_} _.
