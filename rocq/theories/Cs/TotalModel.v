(** Model of crates/core/src/constraint_system/verify.rs lines 73-267 as a whole: the reductions of VerifyModel.v, ring
    switching (lines 243-254) and the polynomial IOP compiler (lines 256-265).

    Simplifications: those of VerifyModel.v, SwitchModel.v and PiopModel.v.  The FRI verifier is a parameter.  Finalizing the
    transcript (line 267) is not modelled.  The result also reports the number of evaluation claims, the challenges of the
    PIOP and the value obtained from FRI, which the code drops. *)
Require Import Coq.Arith.Arith Coq.Lists.List Coq.Bool.Bool.
From Verif Require Import Base.Fld Base.Sums Field.TowerProofs Protocol.Proto Cs.ChannelModel Cs.FlushModel
  RingSwitch.TensorModel RingSwitch.TowerExt RingSwitch.SwitchModel Piop.MetaModel Piop.PiopModel Evalcheck.OracleModel Evalcheck.EvalModel
  Cs.VerifyModel.
Import ListNotations.

Section Total.
  Variable L : nat.
  Notation F := (TF L).
  (** The tower levels of committed columns that are dispatched: 0, 3, 4, 5, 6 and 7 (ring_switch/tower_tensor_algebra.rs 26-36,
      verify.rs 205-241). *)
  Variable levels : list nat.
  Definition tower_exts (kappa : nat) : option (ext F kappa) :=
    match le_dec kappa L with
    | left H => if existsb (Nat.eqb (L - kappa)) levels then Some (tower_ext L kappa H) else None
    | right _ => None
    end.

  Definition is_committed (o : oracle L) : bool := match o_variant o with Committed => true | _ => false end.
  (** piop/commit.rs 42-59: the packed variables of a committed oracle *)
  Definition commit_vars (o : option (oracle L)) : option nat :=
    match o with Some o => if is_committed o then Some (n_packed_vars L (o_nvars o) (o_level o)) else None | None => None end.
  (** what ring switching reads of an oracle, and of a claim (ring_switch/common.rs 73-134) *)
  Definition switch_oracle (o : option (oracle L)) : option SwitchModel.oracle :=
    match o with Some o => Some (SwitchModel.mkOracle (o_nvars o) (o_level o) (is_committed o)) | None => None end.
  Definition switch_claim (c : EvalModel.claim L) : eclaim F := SwitchModel.mkClaim F (c_id c) (c_point c) (c_eval c).

  (** ring_switch/verify.rs 76-101: the indicators as transparent polynomials, the sumcheck claims *)
  Definition eq_transparent (a : eqind F) : transparent F := mkTransparent (length (ei_z F a)) (eqind_evaluate F a).
  Definition sum_claim (c : scclaim F) : piop_claim F := mkPiopClaim F (sc_n_vars F c) (sc_committed F c) (sc_transparent F c) (sc_sum F c).

  Variable u32 : F -> nat.
  Variable bc : nat -> option F.
  Variable domain_bits : nat.
  Variables (arities : list nat) (digest_len : nat) (fri : list (list F) -> list F -> vproto F F).

  (** lines 242-265 *)
  Definition verify_committed (m : commit_meta) (index : list (option nat)) (r : list (EvalModel.claim L) * oset L) : vproto F (nat * (list F * F)) :=
    get s <- VRet (system_new F L (map switch_oracle (snd r)) (fun id => nth id index None) (map switch_claim (fst r)));
    get red <- rs_verify F tower_exts s;
    get out <- piop_verify arities digest_len fri m (map eq_transparent (rc_transparents F red)) (map sum_claim (rc_claims F red));
    VRet (Ok (length (fst r), out)).

  (** lines 73-265; lines 124-125 are the metadata of the commitment *)
  Definition verify_system (fuel : nat) (sys : system L) (os : oset L) (sizes : list nat) (boundaries : list (boundary F)) : vproto F (nat * (list F * F)) :=
    get mi <- VRet (make_oracle_commit_meta (map commit_vars os));
    get r <- verify_reductions L u32 bc domain_bits fuel sys os sizes boundaries;
    verify_committed (fst mi) (snd mi) r.
End Total.
