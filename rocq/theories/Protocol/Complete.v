(** Completeness of interactive protocols: running a prover and a verifier in lockstep.

    [agree Q buf p v]: whatever challenges are drawn, the prover [p] and the verifier [v] sample at
    the same points, the verifier never reads more than the prover has written ([buf] is what has been
    written and not yet read), both return normally with outputs related by [Q], and nothing is left
    unread. *)
Require Import Coq.Arith.Arith Coq.Lists.List Coq.Bool.Bool Lia.
From Verif Require Import Base.Fld Base.Lists Base.Sums Protocol.Proto.
Import ListNotations.

Section Complete.
  Variable F : field.

  Inductive agree {A B} (Q : A -> B -> Prop) : list F -> pproto F A -> vproto F B -> Prop :=
  | agree_ret a b : Q a b -> agree Q [] (PRet (Ok a)) (VRet (Ok b))
  | agree_send buf l p v : agree Q (buf ++ l) p v -> agree Q buf (PSend l p) v
  | agree_read buf n p k : (n <= length buf)%nat -> agree Q (skipn n buf) p (k (firstn n buf)) ->
      agree Q buf p (VRead n k)
  | agree_sample buf kp kv : (forall c, agree Q buf (kp c) (kv c)) -> agree Q buf (PSample kp) (VSample kv).

  (** The verifier accepts whatever the prover wrote, followed by anything, and leaves that unread. *)
  Theorem agree_run {A B} (Q : A -> B -> Prop) buf p v : agree Q buf p v ->
    forall cs a tape rest, prun p cs = Ok (a, tape, rest) ->
    forall extra, exists b, vrun v (buf ++ tape ++ extra) cs = Ok (b, extra, rest) /\ Q a b.
  Proof.
    induction 1 as [a b H|buf l p v H IH|buf n p k L H IH|buf kp kv H IH]; intros cs a' tape rest E extra.
    - cbn [prun rbind] in E. injection E as <- <- <-. exists b. now split.
    - cbn [prun] in E. destruct (prun p cs) as [[[a1 t1] r1]| |] eqn:E1; cbn [rbind] in E; try discriminate.
      injection E as <- <- <-. destruct (IH cs a1 t1 r1 E1 extra) as [b [V HQ]]. exists b. split; auto.
      rewrite <- V. f_equal. rewrite <- !app_assoc. reflexivity.
    - destruct (IH cs a' tape rest E extra) as [b [V HQ]]. exists b. split; auto. cbn [vrun].
      rewrite app_length. destruct (Nat.ltb_spec (length buf + length (tape ++ extra)) n); [lia|].
      rewrite firstn_app, skipn_app. replace (n - length buf)%nat with 0%nat by lia.
      cbn [firstn skipn]. rewrite app_nil_r. exact V.
    - cbn [prun] in E. destruct cs as [|c cs]; [discriminate|]. destruct (IH c cs a' tape rest E extra) as [b [V HQ]].
      exists b. now split.
  Qed.

  (** The prover returns normally on every sufficiently long stream of challenges. *)
  Theorem agree_total {A B} (Q : A -> B -> Prop) buf p v : agree Q buf p v ->
    forall ch : nat -> F, exists n a tape, prun p (map ch (seq 0 n)) = Ok (a, tape, []).
  Proof.
    induction 1 as [a b H|buf l p v H IH|buf n p k L H IH|buf kp kv H IH]; intros ch.
    - exists 0%nat, a, []. reflexivity.
    - destruct (IH ch) as [n [a [t E]]]. exists n, a, (l ++ t). cbn [prun]. now rewrite E.
    - apply IH.
    - destruct (IH (ch 0%nat) (fun i => ch (S i))) as [n [a [t E]]]. exists (S n), a, t. cbn [seq map prun].
      rewrite <- seq_shift, map_map. exact E.
  Qed.

  Lemma agree_mono {A B} (Q Q' : A -> B -> Prop) buf p v : agree Q buf p v -> (forall a b, Q a b -> Q' a b) ->
    agree Q' buf p v.
  Proof. intros H HI. induction H; econstructor; eauto. Qed.

  Lemma agree_bind {A B C D} (Q1 : A -> B -> Prop) (Q : C -> D -> Prop) buf p v f g :
    agree Q1 buf p v -> (forall a b, Q1 a b -> agree Q [] (f a) (g b)) -> agree Q buf (pbind p f) (vbind v g).
  Proof. intros H HF. induction H; cbn [pbind vbind]; eauto; now constructor. Qed.

  Lemma agree_assoc_p {A B C D} (Q : C -> D -> Prop) buf (p : pproto F A) (f : A -> pproto F B) (g : B -> pproto F C) v :
    agree Q buf (pbind p (fun a => pbind (f a) g)) v -> agree Q buf (pbind (pbind p f) g) v.
  Proof.
    assert (E : forall x, pbind (pbind x f) g = pbind (pbind x f) g) by reflexivity.
    clear E. revert buf v. induction p as [[a| |]|l k IH|k IH]; intros buf v; cbn [pbind]; auto.
    - remember (PSend l (pbind k (fun a => pbind (f a) g))) as x. intros H. revert Heqx.
      induction H; intros E; try discriminate.
      + injection E as -> ->. apply agree_send. now apply IH.
      + apply agree_read; auto.
    - remember (PSample (fun c => pbind (k c) (fun a => pbind (f a) g))) as x. intros H. revert Heqx.
      induction H; intros E; try discriminate.
      + apply agree_read; auto.
      + injection E as ->. apply agree_sample. intros c. apply IH. apply H.
  Qed.

  Lemma agree_assoc_v {A B C D} (Q : D -> C -> Prop) (v : vproto F A) (f : A -> vproto F B) (g : B -> vproto F C) :
    forall buf (p : pproto F D), agree Q buf p (vbind v (fun a => vbind (f a) g)) -> agree Q buf p (vbind (vbind v f) g).
  Proof.
    induction v as [[a| |]|n k IH|k IH]; intros buf p; cbn [vbind]; auto.
    - remember (VRead n (fun l => vbind (k l) (fun a => vbind (f a) g))) as x. intros H. revert Heqx.
      induction H; intros E; try discriminate.
      + apply agree_send; auto.
      + injection E as -> ->. apply agree_read; auto.
    - remember (VSample (fun c => vbind (k c) (fun a => vbind (f a) g))) as x. intros H. revert Heqx.
      induction H; intros E; try discriminate.
      + apply agree_send; auto.
      + injection E as ->. apply agree_sample. intros c. apply IH. apply H.
  Qed.

  (** A message read as it was written. *)
  Lemma agree_msg {A B} (Q : A -> B -> Prop) l p k : agree Q [] p (k l) -> agree Q [] (PSend l p) (VRead (length l) k).
  Proof.
    intros H. apply agree_send. cbn [app]. apply agree_read; [lia|]. rewrite firstn_all, skipn_all. exact H.
  Qed.
End Complete.

Arguments agree {_ A B} _ _ _ _.
