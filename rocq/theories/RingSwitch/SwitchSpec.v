(** C65: what the ring-switching reduction is about, independent of how it is done. *)
Require Import Coq.Arith.Arith Coq.Lists.List Coq.Bool.Bool.
From Verif Require Import Base.Fld Base.Sums Math.MleSpec RingSwitch.TensorModel RingSwitch.SwitchModel.
Import ListNotations.
Local Open Scope nat_scope.

Section Spec.
  Variable F : field.
  Variable L : nat.
  Variable E : forall kappa, option (ext F kappa).
  (** [committed k x]: value [x] of the packed multilinear committed at index [k], an element of the large field. *)
  Variable committed : nat -> nat -> F.

  (** The multilinear over the subfield that is packed in [P]: its value [y] is coordinate [y mod 2^kappa] of element [y / 2^kappa]. *)
  Definition unpacked {kappa} (X : ext F kappa) (P : nat -> F) (y : nat) : F := co X (y mod 2 ^ kappa) (P (y / 2 ^ kappa)).

  (** An evaluation claim about an oracle is true: the multilinear extension of the unpacked committed values has this value at this
      point. *)
  Definition claim_true (oracles : list (option oracle)) (index : nat -> option nat) (c : eclaim F) : Prop :=
    exists o k X, nth_error oracles (ec_id F c) = Some (Some o) /\ index (ec_id F c) = Some k /\ E (L - o_level o) = Some X /\
      mle (unpacked X (committed k)) (ec_point F c) = ec_eval F c.

  (** A reduced claim is true: the sum over the hypercube of the packed multilinear times the transparent multilinear, as evaluated by
      the verifier, has the claimed value. *)
  Definition reduced_true (out : reduced F) (c : scclaim F) : Prop :=
    exists a A, nth_error (rc_transparents F out) (sc_transparent F c) = Some a /\
      (forall x, x < 2 ^ sc_n_vars F c -> eqind_evaluate F a (vertex (sc_n_vars F c) x) = Ok (A x)) /\
      sumn (2 ^ sc_n_vars F c) (fun x => committed (sc_committed F c) x * A x)%F = sc_sum F c.
  Definition all_reduced_true (out : reduced F) : Prop := forall c, In c (rc_claims F out) -> reduced_true out c.
End Spec.
