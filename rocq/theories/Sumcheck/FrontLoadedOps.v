(** The front-loaded batch verifier as an object with methods that take [&mut self]: what each call
    returns and the state it leaves behind, also when it fails.
    crates/core/src/protocols/sumcheck/front_loaded.rs lines 144-270. *)
Require Import Coq.Arith.Arith Coq.Lists.List Coq.Bool.Bool.
From Verif Require Import Base.Fld Base.Lists Base.Sums Math.UnivariateModel Protocol.Proto Sumcheck.SumcheckModel.
Import ListNotations.

Section Model.
  Variable F : field.

  (** The calls a user can make between construction and [finish]. *)
  Inductive call : Type := CTryFinish | CReceive | CFinishRound (x : F).

  (** crates/core/src/transcript/mod.rs, [read_scalar_slice]: what remains of the tape after a failed
      read is not observed, since every later read of at least as much fails too; it is left unchanged *)
  Definition read (tape : list F) (n : nat) : res (list F) * list F :=
    if (length tape <? n)%nat then (Err, tape) else (Ok (firstn n tape), skipn n tape).

  (** lines 157-204: the claim is removed from the queue before the evaluations are read, so it stays
      removed when an error is returned *)
  Definition try_finish_step (v : bverifier F) (tape : list F) : res (option (list F)) * bverifier F * list F :=
    match v_claims v with
    | [] => (Ok None, v, tape)
    | (c, a, _) :: rest =>
      match (cl_n c ?= v_round v)%nat with
      | Eq =>
        let v' := mkV rest (v_round v) (v_last v) in
        match read tape (cl_m c) with
        | (Ok evals, tape') =>
          match v_last v with
          | Coeffs _ => (Err, v', tape')
          | SumV sum =>
            match expected_single a c evals with
            | Ok e => (Ok (Some evals), mkV rest (v_round v) (SumV (fsub sum e)), tape')
            | Err => (Err, v', tape')
            | Panic => (Panic, v', tape')
            end
          end
        | (_, tape') => (Err, v', tape')
        end
      | Lt => (Panic, v, tape)
      | Gt => (Ok None, v, tape)
      end
    end.

  (** lines 206-240 *)
  Definition receive_step (v : bverifier F) (tape : list F) : res (option (list F)) * bverifier F * list F :=
    match v_last v with
    | Coeffs _ => (Err, v, tape)
    | SumV sum =>
      match (match v_claims v with
             | (c, _, d) :: _ => if (cl_n c =? v_round v)%nat then Err else Ok d
             | [] => Ok 0%nat
             end) with
      | Ok d =>
        match read tape d with
        | (Ok coeffs, tape') => (Ok None, mkV (v_claims v) (v_round v) (Coeffs (recover coeffs sum)), tape')
        | (_, tape') => (Err, v, tape')
        end
      | _ => (Err, v, tape)
      end
    end.

  (** lines 242-253 *)
  Definition finish_round_step (v : bverifier F) (x : F) : res (option (list F)) * bverifier F :=
    match v_last v with
    | Coeffs c => (Ok None, mkV (v_claims v) (S (v_round v)) (SumV (evaluate_univariate c x)))
    | SumV _ => (Err, v)
    end.

  Definition step (v : bverifier F) (tape : list F) (c : call) : res (option (list F)) * bverifier F * list F :=
    match c with
    | CTryFinish => try_finish_step v tape
    | CReceive => receive_step v tape
    | CFinishRound x => let '(r, v') := finish_round_step v x in (r, v', tape)
    end.

  (** A sequence of calls: what each one returned, and the final state. *)
  Fixpoint calls (v : bverifier F) (tape : list F) (cs : list call)
    : list (call * res (option (list F))) * bverifier F * list F :=
    match cs with
    | [] => ([], v, tape)
    | c :: cs' =>
      let '(r, v', tape') := step v tape c in
      let '(log, v'', tape'') := calls v' tape' cs' in
      ((c, r) :: log, v'', tape'')
    end.
End Model.

Arguments CTryFinish {_}.
Arguments CReceive {_}.
Arguments CFinishRound {_} _.
Arguments read {_} _ _.
Arguments try_finish_step {_} _ _.
Arguments receive_step {_} _ _.
Arguments finish_round_step {_} _ _.
Arguments step {_} _ _ _.
Arguments calls {_} _ _ _.
