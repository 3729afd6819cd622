(** Completeness of interactive protocols, stated for runs, when challenges are taken from a set [G]. *)
Require Import Coq.Arith.Arith Coq.Lists.List Coq.Bool.Bool Lia.
From Verif Require Import Base.Fld Base.Lists Base.Sums Protocol.Proto.
Import ListNotations.

Section Conform.
  Variable F : field.

  (** With challenges from [G] the prover finishes, and the verifier accepts what it wrote, followed by anything, drawing the
      same challenges, with outputs related by [R]. *)
  Definition conform (G : F -> Prop) {A B} (R : A -> B -> Prop) (p : pproto F A) (v : vproto F B) : Prop :=
    (forall ch : nat -> F, (forall i, G (ch i)) -> exists n out tape, prun p (map ch (seq 0 n)) = Ok (out, tape, [])) /\
    (forall cs out tape rest, Forall G cs -> prun p cs = Ok (out, tape, rest) ->
       forall extra, exists out', vrun v (tape ++ extra) cs = Ok (out', extra, rest) /\ R out out').

  Variable G : F -> Prop.

  Lemma prun_pbind {A B} (p : pproto F A) (f : A -> pproto F B) : forall cs,
    prun (pbind p f) cs = (try r <- prun p cs; try s <- prun (f (fst (fst r))) (snd r); Ok (fst (fst s), snd (fst r) ++ snd (fst s), snd s)).
  Proof.
    induction p as [[a| |]|l k IH|k IH]; intros cs; cbn [pbind prun rbind fst snd]; auto.
    - destruct (prun (f a) cs) as [[[b t] r]| |]; reflexivity.
    - rewrite IH. destruct (prun k cs) as [[[a t] r]| |]; cbn [rbind fst snd]; auto.
      destruct (prun (f a) r) as [[[b t'] r']| |]; cbn [rbind fst snd]; auto. now rewrite app_assoc.
    - destruct cs; [reflexivity|apply IH].
  Qed.

  Lemma vrun_bind {A B} (p : vproto F A) (f : A -> vproto F B) : forall tape cs,
    vrun (vbind p f) tape cs = (try r <- vrun p tape cs; vrun (f (fst (fst r))) (snd (fst r)) (snd r)).
  Proof.
    induction p as [[a| |]|n k IH|k IH]; intros tape cs; cbn [vbind vrun rbind fst snd]; auto.
    - destruct (_ <? _)%nat; [reflexivity|apply IH].
    - destruct cs; [reflexivity|apply IH].
  Qed.

  Lemma prun_more {A} (p : pproto F A) : forall cs a t r more, prun p cs = Ok (a, t, r) -> prun p (cs ++ more) = Ok (a, t, r ++ more).
  Proof.
    induction p as [[a| |]|l k IH|k IH]; intros cs a' t r more E; cbn [prun rbind] in *; try discriminate.
    - now injection E as <- <- <-.
    - destruct (prun k cs) as [[[a t'] r']| |] eqn:EK; cbn [rbind] in E; try discriminate. injection E as <- <- <-.
      rewrite (IH _ _ _ _ more EK). reflexivity.
    - destruct cs as [|c cs]; [discriminate|]. cbn [app]. now apply IH.
  Qed.

  Lemma prun_rest {A} (p : pproto F A) : forall cs a t r, Forall G cs -> prun p cs = Ok (a, t, r) -> Forall G r.
  Proof.
    induction p as [[a| |]|l k IH|k IH]; intros cs a' t r H E; cbn [prun rbind] in *; try discriminate.
    - now injection E as <- <- <-.
    - destruct (prun k cs) as [[[a t'] r']| |] eqn:EK; cbn [rbind] in E; try discriminate. injection E as <- <- <-. eauto.
    - destruct cs as [|c cs]; [discriminate|]. apply Forall_inv_tail in H. eauto.
  Qed.

  Lemma seq_ch (ch : nat -> F) n m : map ch (seq 0 (n + m)) = map ch (seq 0 n) ++ map (fun i => ch (n + i)%nat) (seq 0 m).
  Proof.
    rewrite seq_app, map_app. f_equal. cbn [Nat.add]. clear. induction m as [|m IH]; [reflexivity|]. rewrite !seq_S, !map_app, IH. reflexivity.
  Qed.

  Lemma forall_ch (ch : nat -> F) n : (forall i, G (ch i)) -> Forall G (map ch (seq 0 n)).
  Proof. intros H. rewrite Forall_map. apply Forall_forall. auto. Qed.

  Lemma conform_bind {A B C D} (R : A -> B -> Prop) (R' : C -> D -> Prop) p v f g :
    conform G R p v -> (forall a b, R a b -> conform G R' (f a) (g b)) -> conform G R' (pbind p f) (vbind v g).
  Proof.
    intros [T V] H. split.
    - intros ch Hch. destruct (T ch Hch) as [n [a [t E]]].
      destruct (V _ _ _ _ (forall_ch ch n Hch) E []) as [b [_ HR]].
      destruct (H a b HR) as [T' _]. destruct (T' (fun i => ch (n + i)%nat) (fun i => Hch _)) as [m [c [t' E']]].
      exists (n + m)%nat, c, (t ++ t'). rewrite prun_pbind, seq_ch, (prun_more _ _ _ _ _ _ E). cbn [app rbind fst snd]. rewrite E'. reflexivity.
    - intros cs out tape rest HG E extra. rewrite prun_pbind in E. destruct (prun p cs) as [[[a t] r]| |] eqn:EP; cbn [rbind fst snd] in E; try discriminate.
      destruct (prun (f a) r) as [[[c t'] r']| |] eqn:EF; cbn [rbind fst snd] in E; try discriminate. injection E as <- <- <-.
      destruct (V _ _ _ _ HG EP (t' ++ extra)) as [b [EV HR]]. destruct (H a b HR) as [_ V'].
      destruct (V' _ _ _ _ (prun_rest _ _ _ _ _ HG EP) EF extra) as [d [ED HD]]. exists d. split; auto.
      rewrite vrun_bind, <- app_assoc, EV. cbn [rbind fst snd]. exact ED.
  Qed.

  Lemma conform_ret {A B} (R : A -> B -> Prop) a b : R a b -> conform G R (PRet (Ok a)) (VRet (Ok b)).
  Proof.
    intros H. split; [intros ch _; exists 0%nat, a, []; reflexivity|]. intros cs out tape rest _ E extra. cbn [prun rbind] in E. injection E as <- <- <-.
    exists b. split; auto.
  Qed.

  Lemma conform_sample {A B} (R : A -> B -> Prop) f g : (forall c, G c -> conform G R (f c) (g c)) -> conform G R (PSample f) (VSample g).
  Proof.
    intros H. split.
    - intros ch Hch. destruct (H (ch 0%nat) (Hch 0%nat)) as [T _]. destruct (T (fun i => ch (S i)) (fun i => Hch _)) as [n [a [t E]]].
      exists (S n), a, t. cbn [seq map prun]. rewrite <- seq_shift, map_map. exact E.
    - intros [|c cs] out tape rest HG E extra; cbn [prun vrun] in *; [discriminate|]. apply Forall_cons_iff in HG as [HC HG].
      destruct (H c HC) as [_ V]. eauto.
  Qed.

  Lemma conform_send {A B} (R : A -> B -> Prop) l p g : conform G R p (g l) -> conform G R (PSend l p) (VRead (length l) g).
  Proof.
    intros [T V]. split.
    - intros ch Hch. destruct (T ch Hch) as [n [a [t E]]]. exists n, a, (l ++ t). cbn [prun]. now rewrite E.
    - intros cs out tape rest HG E extra. cbn [prun] in E. destruct (prun p cs) as [[[a t] r]| |] eqn:EP; cbn [rbind] in E; try discriminate.
      injection E as <- <- <-. cbn [vrun]. rewrite <- app_assoc, app_length. destruct (Nat.ltb_spec (length l + length (t ++ extra)) (length l)); [lia|].
      rewrite firstn_app, Nat.sub_diag, firstn_all, firstn_O, app_nil_r, skipn_app, skipn_all, Nat.sub_diag. cbn [skipn app]. eauto.
  Qed.

  Lemma conform_mono {A B} (R R' : A -> B -> Prop) p v : (forall a b, R a b -> R' a b) -> conform G R p v -> conform G R' p v.
  Proof. intros H [T V]. split; auto. intros cs out tape rest HG E extra. destruct (V _ _ _ _ HG E extra) as [b [E' HR]]. eauto. Qed.

  Lemma conform_post {A B} (R : A -> B -> Prop) (Q : B -> Prop) p v :
    (forall tape cs b t r, Forall G cs -> vrun v tape cs = Ok (b, t, r) -> Q b) ->
    conform G R p v -> conform G (fun a b => R a b /\ Q b) p v.
  Proof. intros H [T V]. split; auto. intros cs out tape rest HG E extra. destruct (V _ _ _ _ HG E extra) as [b [E' HR]]. eauto. Qed.

  Lemma conform_ext {A B} (R : A -> B -> Prop) p p' v v' : (forall cs, prun p cs = prun p' cs) -> (forall t cs, vrun v t cs = vrun v' t cs) ->
    conform G R p v -> conform G R p' v'.
  Proof.
    intros HP HV [T V]. split.
    - intros ch Hch. destruct (T ch Hch) as [n [a [t E]]]. exists n, a, t. now rewrite <- HP.
    - intros cs out tape rest HG E extra. rewrite <- HP in E. destruct (V _ _ _ _ HG E extra) as [b [E' HR]]. exists b. split; auto. now rewrite <- HV.
  Qed.

  (** what a verifier returns when challenges are in [G] *)
  Fixpoint gives {A} (Q : A -> Prop) (p : vproto F A) : Prop :=
    match p with
    | VRet (Ok a) => Q a
    | VRet _ => True
    | VRead n k => forall l, gives Q (k l)
    | VSample k => forall c, G c -> gives Q (k c)
    end.
  Lemma gives_bind {A B} (Q1 : A -> Prop) (Q : B -> Prop) p f : gives Q1 p -> (forall a, Q1 a -> gives Q (f a)) -> gives Q (vbind p f).
  Proof. intros H HF. induction p as [[a| |]|n k IH|k IH]; cbn [vbind gives] in *; auto. Qed.
  Lemma gives_true {A} (p : vproto F A) : gives (fun _ => True) p.
  Proof. induction p as [[a| |]|n k IH|k IH]; cbn [gives]; auto. Qed.
  Lemma gives_vrun {A} (Q : A -> Prop) p : gives Q p -> forall tape cs a t r, Forall G cs -> vrun p tape cs = Ok (a, t, r) -> Q a.
  Proof.
    induction p as [[a| |]|n k IH|k IH]; intros H tape cs a' t r HG E; cbn [gives vrun rbind] in *; try discriminate.
    - now injection E as <- _ _.
    - destruct (_ <? _)%nat; [discriminate|]. eapply IH; eauto.
    - destruct cs as [|c cs]; [discriminate|]. apply Forall_cons_iff in HG as [HC HG]. eapply IH; eauto.
  Qed.
End Conform.
Arguments conform {_} _ {_ _} _ _ _.
Arguments gives {_} _ {_} _ _.
