(** Verifiers that never panic, whatever the proof and the challenges. *)
Require Import Coq.Arith.Arith Coq.Lists.List Coq.Bool.Bool Lia.
From Verif Require Import Base.Fld Base.Lists Base.Sums Protocol.Proto.
Import ListNotations.

Section Safe.
  Variable F : field.

  (** no execution panics and every result satisfies [Q] *)
  Fixpoint safe {A} (Q : A -> Prop) (p : vproto F A) : Prop :=
    match p with
    | VRet (Ok a) => Q a
    | VRet Err => True
    | VRet Panic => False
    | VRead n k => forall l, length l = n -> safe Q (k l)
    | VSample k => forall c, safe Q (k c)
    end.

  Lemma safe_bind {A B} (Q1 : A -> Prop) (Q : B -> Prop) p f : safe Q1 p -> (forall a, Q1 a -> safe Q (f a)) ->
    safe Q (vbind p f).
  Proof.
    induction p as [[a| |]|n k IH|k IH]; cbn [vbind safe]; auto.
  Qed.

  Lemma safe_ret {A} (Q : A -> Prop) r : r <> Panic -> (forall a, r = Ok a -> Q a) -> safe Q (VRet r).
  Proof. destruct r; cbn [safe]; auto. Qed.

  Lemma safe_mono {A} (Q Q' : A -> Prop) p : safe Q p -> (forall a, Q a -> Q' a) -> safe Q' p.
  Proof.
    induction p as [[a| |]|n k IH|k IH]; cbn [safe]; auto.
  Qed.

  Lemma safe_vsamples n : safe (fun cs => length cs = n) (vsamples n).
  Proof.
    induction n as [|n IH]; cbn [vsamples safe]; [reflexivity|]. intros c. eapply safe_bind; [exact IH|].
    intros cs Hc. cbn beta iota delta [safe]. cbn [length]. now f_equal.
  Qed.

  Theorem safe_vrun {A} (Q : A -> Prop) p : safe Q p -> forall tape cs, vrun p tape cs <> Panic.
  Proof.
    induction p as [[a| |]|n k IH|k IH]; intros H tape cs; cbn [vrun rbind].
    - discriminate.
    - discriminate.
    - destruct H.
    - destruct (Nat.ltb_spec (length tape) n); [discriminate|]. apply IH, H. rewrite firstn_length. lia.
    - destruct cs as [|c cs]; [discriminate|]. apply IH, H.
  Qed.
End Safe.

Arguments safe {_ A} _ _.
