(** Interactive protocols at the level of field elements.

    A verifier that uses a [VerifierTranscript] (crates/core/src/transcript/mod.rs lines 150-420) only
    reads scalars with [read_scalar_slice], samples challenges with [sample] and returns a result.
    [vproto] is the syntax of such programs; a prover only writes scalars and samples ([pproto]).
    Simplification: scalars are not encoded as bytes here and challenges come from a supplied list.
    That both sides sample the same challenges, each a function of all bytes written before, is
    C33-C35 and C59 (Transcript/). *)
Require Import Coq.Arith.Arith Coq.Lists.List Coq.Bool.Bool Lia.
From Verif Require Import Base.Fld Base.Lists Base.Sums.
Import ListNotations.

Section Proto.
  Variable F : field.

  Inductive vproto (A : Type) : Type :=
  | VRet (r : res A)
  | VRead (n : nat) (k : list F -> vproto A)
  | VSample (k : F -> vproto A).
  Arguments VRet {A} _.
  Arguments VRead {A} _ _.
  Arguments VSample {A} _.

  Fixpoint vbind {A B} (p : vproto A) (f : A -> vproto B) : vproto B :=
    match p with
    | VRet (Ok a) => f a
    | VRet Err => VRet Err
    | VRet Panic => VRet Panic
    | VRead n k => VRead n (fun l => vbind (k l) f)
    | VSample k => VSample (fun c => vbind (k c) f)
    end.

  Inductive pproto (A : Type) : Type :=
  | PRet (r : res A)
  | PSend (l : list F) (k : pproto A)
  | PSample (k : F -> pproto A).
  Arguments PRet {A} _.
  Arguments PSend {A} _ _.
  Arguments PSample {A} _.

  Fixpoint pbind {A B} (p : pproto A) (f : A -> pproto B) : pproto B :=
    match p with
    | PRet (Ok a) => f a
    | PRet Err => PRet Err
    | PRet Panic => PRet Panic
    | PSend l k => PSend l (pbind k f)
    | PSample k => PSample (fun c => pbind (k c) f)
    end.

  (** [sample_vec] (crates/core/src/fiat_shamir/sampling.rs): n challenges in order. *)
  Fixpoint vsamples (n : nat) : vproto (list F) :=
    match n with
    | O => VRet (Ok [])
    | S n' => VSample (fun c => vbind (vsamples n') (fun cs => VRet (Ok (c :: cs))))
    end.
  Fixpoint psamples (n : nat) : pproto (list F) :=
    match n with
    | O => PRet (Ok [])
    | S n' => PSample (fun c => pbind (psamples n') (fun cs => PRet (Ok (c :: cs))))
    end.

  (** Running the verifier on a proof tape and a list of challenges: the result, the unread tape
      and the unused challenges.  Reading past the end of the tape is an error
      (crates/core/src/transcript/mod.rs, [Error::NotEnoughBytes]). *)
  Fixpoint vrun {A} (p : vproto A) (tape cs : list F) : res (A * list F * list F) :=
    match p with
    | VRet r => try a <- r; Ok (a, tape, cs)
    | VRead n k => if (length tape <? n)%nat then Err else vrun (k (firstn n tape)) (skipn n tape) cs
    | VSample k => match cs with
                   | [] => Err
                   | c :: cs' => vrun (k c) tape cs'
                   end
    end.

  (** Running the prover: its result, the tape it wrote and the unused challenges. *)
  Fixpoint prun {A} (p : pproto A) (cs : list F) : res (A * list F * list F) :=
    match p with
    | PRet r => try a <- r; Ok (a, [], cs)
    | PSend l k => try x <- prun k cs; let '(a, tape, cs') := x in Ok (a, l ++ tape, cs')
    | PSample k => match cs with
                   | [] => Err
                   | c :: cs' => prun (k c) cs'
                   end
    end.

  (** Playing the verifier against an arbitrary prover strategy, which chooses its next message
      knowing all challenges drawn so far and how many messages it has sent. *)
  Fixpoint vplay {A} (p : vproto A) (strategy : list F -> nat -> list F) (hist : list F) (sent : nat) (cs : list F)
    : res A :=
    match p with
    | VRet r => r
    | VRead n k => let l := strategy hist sent in
                   if (length l =? n)%nat then vplay (k l) strategy hist (S sent) cs else Err
    | VSample k => match cs with
                   | [] => Err
                   | c :: cs' => vplay (k c) strategy (hist ++ [c]) sent cs'
                   end
    end.
End Proto.

Arguments VRet {_ A} _.
Arguments VRead {_ A} _ _.
Arguments VSample {_ A} _.
Arguments vbind {_ A B} _ _.
Arguments PRet {_ A} _.
Arguments PSend {_ A} _ _.
Arguments PSample {_ A} _.
Arguments pbind {_ A B} _ _.
Arguments vsamples {_} _.
Arguments psamples {_} _.
Arguments vrun {_ A} _ _ _.
Arguments prun {_ A} _ _.
Arguments vplay {_ A} _ _ _ _ _.

(** [r?] in a verifier or a prover *)
Definition vlift {F : field} {A} (r : res A) : vproto F A := VRet r.
Definition plift {F : field} {A} (r : res A) : pproto F A := PRet r.

Notation "'get' x <- p ; k" := (vbind p (fun x => k)) (at level 200, x pattern, p at level 100, k at level 200).
Notation "'put' x <- p ; k" := (pbind p (fun x => k)) (at level 200, x pattern, p at level 100, k at level 200).
Notation vread n := (VRead n (fun l => VRet (Ok l))).
Notation vsample := (VSample (fun c => VRet (Ok c))).
Notation psend l := (PSend l (PRet (Ok tt))).
Notation psample := (PSample (fun c => PRet (Ok c))).
