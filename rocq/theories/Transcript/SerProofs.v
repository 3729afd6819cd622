(** Lemmas about the serialization model. *)
Require Import Coq.NArith.NArith Coq.Arith.Arith Coq.Lists.List Coq.Bool.Bool Lia.
Require Import Verif.Base.Sums Verif.Transcript.SerModel.
Import ListNotations.
Local Close Scope N_scope. Local Open Scope nat_scope.

Lemma rbind_ok {A B} (r : res A) (f : A -> res B) b :
  rbind r f = Ok b -> exists a, r = Ok a /\ f a = Ok b.
Proof. destruct r; cbn; try discriminate. eauto. Qed.

Lemma ok_inj {A} (a b : A) : Ok a = Ok b -> a = b.
Proof. now intros [= ->]. Qed.

(** ** Induction over nested types *)
Section TyInd.
  Variable P : ty -> Prop.
  Variable HUInt : forall k, P (TUInt k).
  Variable HUsize : P TUsize.
  Variable HBool : P TBool.
  Variable HUnit : P TUnit.
  Variable HStr : P TStr.
  Variable HSmall : forall n, P (TSmall n).
  Variable HOid : P TOid.
  Variable HArr : forall n, P (TArr n).
  Variable HVec : forall t, P t -> P (TVec t).
  Variable HOpt : forall t, P t -> P (TOpt t).
  Variable HPair : forall t u, P t -> P u -> P (TPair t u).
  Variable HEnum : forall ts, Forall P ts -> P (TEnum ts).
  Fixpoint ty_ind' (t : ty) : P t :=
    match t with
    | TUInt k => HUInt k | TUsize => HUsize | TBool => HBool | TUnit => HUnit | TStr => HStr
    | TSmall n => HSmall n | TOid => HOid | TArr n => HArr n
    | TVec t => HVec t (ty_ind' t)
    | TOpt t => HOpt t (ty_ind' t)
    | TPair t u => HPair t u (ty_ind' t) (ty_ind' u)
    | TEnum ts => HEnum ts ((fix all ts : Forall P ts :=
        match ts with [] => Forall_nil P | t :: r => Forall_cons t (ty_ind' t) (all r) end) ts)
    end.
End TyInd.

(** ** Little-endian integers *)
Lemma le_bytes_length k x : length (le_bytes k x) = k.
Proof. revert x. induction k; cbn; auto. Qed.

Lemma of_le_bytes k x : (x < 256 ^ N.of_nat k)%N -> of_le (le_bytes k x) = x.
Proof.
  revert x. induction k; intros x H.
  - cbn in *. lia.
  - cbn [le_bytes of_le]. rewrite IHk.
    + pose proof (N.div_mod x 256). lia.
    + apply N.div_lt_upper_bound; [lia|].
      rewrite Nat2N.inj_succ, N.pow_succ_r' in H. exact H.
Qed.

Lemma le_bytes_ok k x : bytes_ok (le_bytes k x).
Proof.
  revert x. induction k; intros x; cbn [le_bytes]; constructor; [apply N.mod_lt; lia|apply IHk].
Qed.

Lemma of_le_lt bs : bytes_ok bs -> (of_le bs < 256 ^ N.of_nat (length bs))%N.
Proof.
  induction 1; cbn [of_le length]; [cbn; lia|].
  rewrite Nat2N.inj_succ, N.pow_succ_r'. lia.
Qed.

(** ** Puts and takes *)
Lemma put_ok bs room b : put bs room = Ok b -> b = bs.
Proof. unfold put. destruct (room <? length bs); [discriminate|now intros [= ->]]. Qed.

Lemma take_app (b rest : list byte) : take (length b) (b ++ rest) = Ok (b, rest).
Proof.
  unfold take. rewrite app_length. destruct (Nat.ltb_spec (length b + length rest) (length b)); [lia|].
  now rewrite firstn_app, Nat.sub_diag, firstn_all, app_nil_r, skipn_app, Nat.sub_diag, skipn_all.
Qed.

Lemma take_short n buf : length buf < n -> take n buf = Err.
Proof. intros. unfold take. now rewrite (proj2 (Nat.ltb_lt _ _)). Qed.

Lemma take_ok n buf s rest : take n buf = Ok (s, rest) -> buf = s ++ rest /\ length s = n.
Proof.
  unfold take. destruct (Nat.ltb_spec (length buf) n); [discriminate|]. intros [= <- <-].
  split; [now rewrite firstn_skipn|]. rewrite firstn_length. lia.
Qed.

Lemma take_no_panic n buf : take n buf <> Panic.
Proof. unfold take. destruct (_ <? _); discriminate. Qed.

Lemma ser_uint_ok k x room b : ser_uint k x room = Ok b -> b = le_bytes k x.
Proof. apply put_ok. Qed.

Lemma ser_usize_ok x room b : ser_usize x room = Ok b -> (x < 2 ^ 32)%N /\ b = le_bytes 4 x.
Proof.
  unfold ser_usize. destruct (N.ltb_spec x (2 ^ 32)); [|discriminate]. intros E.
  split; [assumption|]. now apply ser_uint_ok in E.
Qed.

Lemma and_then_ok w1 w2 room b : and_then w1 w2 room = Ok b ->
  exists r1 r2 b1 b2, w1 r1 = Ok b1 /\ w2 r2 = Ok b2 /\ b = b1 ++ b2.
Proof.
  unfold and_then. intros E. apply rbind_ok in E as [b1 [E1 E]]. apply rbind_ok in E as [b2 [E2 E]].
  apply ok_inj in E. now exists room, (room - length b1), b1, b2.
Qed.

Lemma de_uint_enc k x rest : (x < 256 ^ N.of_nat k)%N -> de_uint k (le_bytes k x ++ rest) = Ok (x, rest).
Proof.
  intros. unfold de_uint. rewrite <- (le_bytes_length k x) at 1. rewrite take_app. cbn [rbind].
  now rewrite of_le_bytes.
Qed.

Lemma de_uint_short k buf : length buf < k -> de_uint k buf = Err.
Proof. intros. unfold de_uint. now rewrite take_short. Qed.

Lemma de_uint_ok k buf x rest : de_uint k buf = Ok (x, rest) ->
  exists s, buf = s ++ rest /\ length s = k /\ x = of_le s.
Proof.
  unfold de_uint. intros E. apply rbind_ok in E as [[s r] [E1 E]]. apply ok_inj in E.
  apply take_ok in E1 as [E1 E2]. inversion E. subst. eauto.
Qed.

Lemma de_uint_no_panic k buf : de_uint k buf <> Panic.
Proof. unfold de_uint. pose proof (take_no_panic k buf). destruct (take k buf) as [[]| |]; cbn; congruence. Qed.

Lemma lt32_256 x : (x < 2 ^ 32)%N -> (x < 256 ^ N.of_nat 4)%N.
Proof. now change (256 ^ N.of_nat 4)%N with (2 ^ 32)%N. Qed.

Lemma app_prefix {A} (p q b1 b2 : list A) : p ++ q = b1 ++ b2 -> q <> [] ->
  (exists q', q' <> [] /\ p ++ q' = b1) \/ (exists p2, p = b1 ++ p2 /\ p2 ++ q = b2).
Proof.
  revert b1. induction p; intros b1 E Q.
  - destruct b1; [right; exists []; auto|left]. exists (a :: b1). split; [discriminate|reflexivity].
  - destruct b1 as [|c b1]; [right; exists (a :: p); auto|].
    cbn in E. injection E as -> E. destruct (IHp _ E Q) as [[q' [Q' E']]|[p2 [E1 E2]]].
    + left. exists q'. split; auto. cbn. now rewrite E'.
    + right. exists p2. split; auto. now rewrite E1.
Qed.

Lemma prefix_len {A} (p q b : list A) : p ++ q = b -> q <> [] -> length p < length b.
Proof. intros <- H. rewrite app_length. destruct q; [congruence|cbn; lia]. Qed.

Section WithUtf8.
  Variable utf8 : list byte -> bool.

  (** The anonymous recursions over the variants of an enum. *)
  Fixpoint ser_variant (ts : list ty) (i : N) : val (TEnum ts) -> nat -> res (list byte) :=
    match ts return val (TEnum ts) -> nat -> res (list byte) with
    | [] => fun e => match e with end
    | t :: r => fun v =>
      match v with
      | inl x => and_then (ser_uint 1 (i mod 256)%N) (ser t x)
      | inr y => ser_variant r (i + 1)%N y
      end
    end.
  Section Variant.
    Variable idx : N.
    Variable buf1 : list byte.
    Fixpoint de_variant (ts : list ty) (i : N) : res (val (TEnum ts) * list byte) :=
      match ts return res (val (TEnum ts) * list byte) with
      | [] => Err
      | t :: r =>
        if (idx =? i mod 256)%N
        then try (x, buf2) <- de utf8 t buf1; Ok (inl x, buf2)
        else try (y, buf2) <- de_variant r (i + 1)%N; Ok (inr y, buf2)
      end.
  End Variant.
  Fixpoint wf_variant (ts : list ty) : val (TEnum ts) -> Prop :=
    match ts return val (TEnum ts) -> Prop with
    | [] => fun _ => True
    | t :: r => fun v => match v with inl x => wf utf8 t x | inr y => wf_variant r y end
    end.
  Lemma ser_enum ts : ser (TEnum ts) = ser_variant ts 0%N.
  Proof. reflexivity. Qed.
  Lemma de_enum ts buf : de utf8 (TEnum ts) buf =
    try (idx, buf1) <- de_uint 1 buf; de_variant idx buf1 ts 0%N.
  Proof. reflexivity. Qed.
  Lemma wf_enum ts : wf utf8 (TEnum ts) = wf_variant ts.
  Proof. reflexivity. Qed.
  Lemma ty_ok_enum ts : ty_ok (TEnum ts) -> length ts <= 256 /\ Forall ty_ok ts.
  Proof. cbn. intros [H1 H2]. split; auto. clear H1. induction ts; constructor; tauto. Qed.

  (** ** Round trip and truncation *)
  Definition good (t : ty) : Prop := ty_ok t -> forall (v : val t) room b, wf utf8 t v ->
    ser t v room = Ok b ->
    (forall rest, de utf8 t (b ++ rest) = Ok (v, rest)) /\
    (forall p q, p ++ q = b -> q <> [] -> de utf8 t p = Err).

  Lemma good_uint k : good (TUInt k).
  Proof.
    intros _ v room b W E. cbn in E. apply ser_uint_ok in E. subst. split.
    - intros. now apply de_uint_enc.
    - intros p q E Q. apply prefix_len in E; auto. rewrite le_bytes_length in E.
      now apply de_uint_short.
  Qed.

  Lemma good_items t : good t -> ty_ok t -> forall l room b, Forall (wf utf8 t) l ->
    ser_items (ser t) l room = Ok b ->
    (forall rest, de_items (de utf8 t) (length l) (b ++ rest) = Ok (l, rest)) /\
    (forall p q, p ++ q = b -> q <> [] -> de_items (de utf8 t) (length l) p = Err).
  Proof.
    intros G OK. induction l; intros room b W E; cbn [ser_items length de_items] in *.
    - apply ok_inj in E. subst. split; [reflexivity|].
      intros p q E Q. apply prefix_len in E; auto. cbn in E. lia.
    - apply and_then_ok in E as (r1 & r2 & b1 & b2 & E1 & E2 & ->).
      inversion W as [|? ? W1 W2]; subst.
      destruct (G OK a r1 b1 W1 E1) as [G1 G2]. destruct (IHl r2 b2 W2 E2) as [I1 I2]. split.
      + intros rest. rewrite <- app_assoc, G1. cbn [rbind]. now rewrite I1.
      + intros p q E Q. apply app_prefix in E as [[q' [Q' E']]|[p2 [-> E']]]; auto.
        * rewrite (G2 _ _ E' Q'). reflexivity.
        * rewrite G1. cbn [rbind]. now rewrite (I2 _ _ E' Q).
  Qed.

  Lemma good_variants ts : Forall good ts -> Forall ty_ok ts -> forall i v room b,
    (i + N.of_nat (length ts) <= 256)%N -> wf_variant ts v -> ser_variant ts i v room = Ok b ->
    exists j b2, b = le_bytes 1 j ++ b2 /\ (i <= j < 256)%N /\
      (forall rest, de_variant j (b2 ++ rest) ts i = Ok (v, rest)) /\
      (forall p q, p ++ q = b2 -> q <> [] -> de_variant j p ts i = Err).
  Proof.
    induction ts; intros G OK i v room b L W E; [destruct v|].
    inversion G as [|? ? G1 G2]; subst. inversion OK as [|? ? O1 O2]; subst.
    cbn [length] in L. assert (Hi : (i mod 256 = i)%N) by (apply N.mod_small; lia).
    cbn [de_variant ser_variant wf_variant] in *.
    destruct v as [x|y].
    - apply and_then_ok in E as (r1 & r2 & b1 & b2 & E1 & E2 & ->).
      apply ser_uint_ok in E1. subst b1. rewrite Hi. exists i, b2. split; [reflexivity|].
      split; [lia|]. destruct (G1 O1 x r2 b2 W E2) as [R T]. rewrite N.eqb_refl. split.
      + intros. now rewrite R.
      + intros p q E Q. now rewrite (T p q E Q).
    - destruct (IHts G2 O2 (i + 1)%N y room b) as (j & b2 & -> & Hj & R & T); auto; [lia|].
      exists j, b2. split; [reflexivity|]. split; [lia|].
      rewrite Hi. destruct (N.eqb_spec j i); [lia|]. split.
      + intros. now rewrite R.
      + intros p q E' Q. now rewrite (T p q E' Q).
  Qed.

  Lemma le1 (x : N) : (x < 256)%N -> (x < 256 ^ N.of_nat 1)%N.
  Proof. intros. change (256 ^ N.of_nat 1)%N with 256%N. assumption. Qed.

  Theorem ser_good t : good t.
  Proof.
    induction t using ty_ind'.
    - apply good_uint.
    - intros _ v room b W E. cbn in E, W. apply ser_usize_ok in E as [H ->]. split.
      + intros. apply de_uint_enc. now apply lt32_256.
      + intros p q E Q. apply prefix_len in E; auto. rewrite le_bytes_length in E.
        now apply de_uint_short.
    - intros _ v room b W E. cbn [ser] in E. apply ser_uint_ok in E. subst. split.
      + intros. cbn [de]. rewrite de_uint_enc by (apply le1; destruct v; lia). now destruct v.
      + intros p q E Q. apply prefix_len in E; auto. rewrite le_bytes_length in E.
        cbn [de]. now rewrite de_uint_short.
    - intros _ [] room b W E. cbn in E. apply ok_inj in E. subst. split; [reflexivity|].
      intros p q E Q. apply prefix_len in E; auto. cbn in E. lia.
    - intros _ v room b [W1 W2] E. cbn [ser] in E.
      apply and_then_ok in E as (r1 & r2 & b1 & b2 & E1 & E2 & ->).
      apply ser_usize_ok in E1 as [H ->]. apply put_ok in E2. subst b2. cbn [de]. unfold de_usize. split.
      + intros rest. rewrite <- app_assoc, de_uint_enc by now apply lt32_256. cbn [rbind].
        rewrite Nat2N.id, take_app. cbn [rbind]. now rewrite W2.
      + intros p q E Q. apply app_prefix in E as [[q' [Q' E']]|[p2 [-> E']]]; auto.
        * apply prefix_len in E'; auto. rewrite le_bytes_length in E'. now rewrite de_uint_short.
        * rewrite de_uint_enc by now apply lt32_256. cbn [rbind].
          apply prefix_len in E'; auto. rewrite Nat2N.id, take_short by assumption. reflexivity.
    - intros OK v room b W E. cbn [ser wf ty_ok] in *. apply ser_uint_ok in E. subst. cbn [de].
      assert (L : (v < 256)%N).
      { eapply N.lt_le_trans; [exact W|]. change 256%N with (2 ^ 8)%N. apply N.pow_le_mono_r; lia. }
      split.
      + intros. rewrite de_uint_enc by now apply le1. cbn [rbind]. now rewrite N.mod_small.
      + intros p q E Q. apply prefix_len in E; auto. rewrite le_bytes_length in E.
        now rewrite de_uint_short.
    - intros _ v room b W E. cbn [ser wf] in *. apply ser_uint_ok in E. subst. cbn [de].
      rewrite N.mod_small by assumption. split.
      + intros. apply de_uint_enc. now apply lt32_256.
      + intros p q E Q. apply prefix_len in E; auto. rewrite le_bytes_length in E.
        now apply de_uint_short.
    - intros _ v room b [W1 W2] E. cbn [ser] in E. apply put_ok in E. subst b. cbn [de]. split.
      + intros. rewrite <- W2. apply take_app.
      + intros p q E Q. apply prefix_len in E; auto. apply take_short. lia.
    - intros OK v room b W E. cbn [ser wf ty_ok] in *.
      apply and_then_ok in E as (r1 & r2 & b1 & b2 & E1 & E2 & ->).
      apply ser_usize_ok in E1 as [H ->]. cbn [de]. unfold de_usize.
      destruct (good_items t IHt OK v r2 b2 W E2) as [R T]. split.
      + intros rest. rewrite <- app_assoc, de_uint_enc by now apply lt32_256. cbn [rbind].
        rewrite Nat2N.id. apply R.
      + intros p q E Q. apply app_prefix in E as [[q' [Q' E']]|[p2 [-> E']]]; auto.
        * apply prefix_len in E'; auto. rewrite le_bytes_length in E'. now rewrite de_uint_short.
        * rewrite de_uint_enc by now apply lt32_256. cbn [rbind]. rewrite Nat2N.id. now apply (T p2 q).
    - intros OK v room b W E. cbn [ser wf ty_ok] in *. destruct v as [x|].
      + apply and_then_ok in E as (r1 & r2 & b1 & b2 & E1 & E2 & ->).
        apply ser_uint_ok in E1. subst b1. destruct (IHt OK x r2 b2 W E2) as [R T]. cbn [de]. split.
        * intros rest. rewrite <- app_assoc, de_uint_enc by (apply le1; lia). cbn [rbind negb N.eqb].
          now rewrite R.
        * intros p q E Q. apply app_prefix in E as [[q' [Q' E']]|[p2 [-> E']]]; auto.
          -- apply prefix_len in E'; auto. rewrite le_bytes_length in E'. now rewrite de_uint_short.
          -- rewrite de_uint_enc by (apply le1; lia). cbn [rbind negb N.eqb]. now rewrite (T p2 q).
      + apply ser_uint_ok in E. subst. cbn [de]. split.
        * intros rest. now rewrite de_uint_enc by (apply le1; lia).
        * intros p q E Q. apply prefix_len in E; auto. rewrite le_bytes_length in E.
          now rewrite de_uint_short.
    - intros OK [x y] room b W E. cbn [ser wf ty_ok fst snd] in *.
      apply and_then_ok in E as (r1 & r2 & b1 & b2 & E1 & E2 & ->).
      destruct W as [W1 W2]. destruct OK as [O1 O2]. cbn [de].
      destruct (IHt1 O1 x r1 b1 W1 E1) as [R1 T1]. destruct (IHt2 O2 y r2 b2 W2 E2) as [R2 T2]. split.
      + intros rest. rewrite <- app_assoc, R1. cbn [rbind]. now rewrite R2.
      + intros p q E Q. apply app_prefix in E as [[q' [Q' E']]|[p2 [-> E']]]; auto.
        * now rewrite (T1 _ _ E' Q').
        * rewrite R1. cbn [rbind]. now rewrite (T2 _ _ E' Q).
    - intros OK v room b W E. rewrite ser_enum in E. rewrite wf_enum in W.
      apply ty_ok_enum in OK as [L OK].
      destruct (good_variants ts H OK 0%N v room b) as (j & b2 & -> & Hj & R & T); auto; [lia|].
      split.
      + intros rest. rewrite de_enum, <- app_assoc, de_uint_enc by (apply le1; lia). apply R.
      + intros p q E' Q. rewrite de_enum. apply app_prefix in E' as [[q' [Q' E']]|[p2 [-> E']]]; auto.
        * apply prefix_len in E'; auto. rewrite le_bytes_length in E'. now rewrite de_uint_short.
        * rewrite de_uint_enc by (apply le1; lia). cbn [rbind]. now apply (T p2 q).
  Qed.

  (** ** Reading arbitrary bytes *)
  Definition safe (t : ty) : Prop := forall buf,
    match de utf8 t buf with
    | Ok (v, rest) => (exists c, buf = c ++ rest) /\ (bytes_ok buf -> wf utf8 t v)
    | Err => True
    | Panic => False
    end.

  Lemma bytes_ok_app a b : bytes_ok (a ++ b) -> bytes_ok a /\ bytes_ok b.
  Proof. intros. now apply Forall_app. Qed.

  Lemma uint_safe k buf : match de_uint k buf with
    | Ok (x, rest) => (exists c, buf = c ++ rest) /\ (bytes_ok buf -> (x < 256 ^ N.of_nat k)%N)
    | Err => True
    | Panic => False
    end.
  Proof.
    destruct (de_uint k buf) as [[x rest]| |] eqn:E; auto.
    - apply de_uint_ok in E as (s & -> & L & ->). split; [eauto|]. intros B.
      apply bytes_ok_app in B as [B _]. rewrite <- L. now apply of_le_lt.
    - now apply de_uint_no_panic in E.
  Qed.

  Lemma items_safe t n : safe t -> forall buf, match de_items (de utf8 t) n buf with
    | Ok (l, rest) => (exists c, buf = c ++ rest) /\ (bytes_ok buf -> Forall (wf utf8 t) l)
    | Err => True
    | Panic => False
    end.
  Proof.
    intros S. induction n; intros buf; cbn [de_items].
    - split; [now exists []|constructor].
    - specialize (S buf). destruct (de utf8 t buf) as [[x b1]| |]; cbn [rbind]; auto.
      destruct S as [[c ->] W]. specialize (IHn b1).
      destruct (de_items (de utf8 t) n b1) as [[l b2]| |]; cbn [rbind]; auto.
      destruct IHn as [[c2 ->] W2]. split; [exists (c ++ c2); now rewrite app_assoc|].
      intros B. pose proof (bytes_ok_app _ _ B) as [_ B2]. constructor; auto.
  Qed.

  Lemma variants_safe idx buf ts : Forall safe ts -> forall i, match de_variant idx buf ts i with
    | Ok (v, rest) => (exists c, buf = c ++ rest) /\ (bytes_ok buf -> wf_variant ts v)
    | Err => True
    | Panic => False
    end.
  Proof.
    induction 1 as [|t ts S SS IH]; intros i; cbn [de_variant]; auto.
    destruct (_ =? _)%N.
    - specialize (S buf). destruct (de utf8 t buf) as [[x b1]| |]; cbn [rbind]; auto.
    - specialize (IH (i + 1)%N). destruct (de_variant idx buf ts (i + 1)) as [[x b1]| |]; cbn [rbind]; auto.
  Qed.

  Theorem de_safe t : safe t.
  Proof.
    induction t using ty_ind'; intros buf.
    - apply uint_safe.
    - pose proof (uint_safe 4 buf) as H. cbn [de]. unfold de_usize.
      destruct (de_uint 4 buf) as [[x rest]| |]; auto. destruct H as [H1 H2]. split; auto.
      intros B. specialize (H2 B). cbn [wf]. eapply N.lt_trans; [exact H2|]. reflexivity.
    - pose proof (uint_safe 1 buf) as H. cbn [de].
      destruct (de_uint 1 buf) as [[x rest]| |]; cbn [rbind]; auto. destruct H as [H1 H2]. split; auto.
      intros. exact I.
    - cbn. split; [now exists []|auto].
    - pose proof (uint_safe 4 buf) as H. cbn [de]. unfold de_usize.
      destruct (de_uint 4 buf) as [[x rest]| |]; cbn [rbind]; auto. destruct H as [[c ->] H2].
      destruct (take (N.to_nat x) rest) as [[s r2]| |] eqn:E; cbn [rbind]; auto.
      + apply take_ok in E as [-> L]. destruct (utf8 s) eqn:U; auto. split.
        * exists (c ++ s). now rewrite app_assoc.
        * intros B. apply bytes_ok_app in B as [_ B]. apply bytes_ok_app in B as [B _]. now split.
      + now apply take_no_panic in E.
    - pose proof (uint_safe 1 buf) as H. cbn [de].
      destruct (de_uint 1 buf) as [[x rest]| |]; cbn [rbind]; auto. destruct H as [H1 H2]. split; auto.
      intros _. cbn [wf]. apply N.mod_lt. apply N.pow_nonzero. lia.
    - pose proof (uint_safe 4 buf) as H. cbn [de].
      destruct (de_uint 4 buf) as [[x rest]| |]; auto.
    - cbn [de]. destruct (take n buf) as [[s r2]| |] eqn:E; auto.
      + apply take_ok in E as [-> L]. split; [now exists s|].
        intros B. apply bytes_ok_app in B as [B _]. now split.
      + now apply take_no_panic in E.
    - pose proof (uint_safe 4 buf) as H. cbn [de]. unfold de_usize.
      destruct (de_uint 4 buf) as [[x rest]| |]; cbn [rbind]; auto. destruct H as [[c ->] H2].
      pose proof (items_safe t (N.to_nat x) IHt rest) as I.
      destruct (de_items (de utf8 t) (N.to_nat x) rest) as [[l r2]| |]; auto.
      destruct I as [[c2 ->] I]. split; [exists (c ++ c2); now rewrite app_assoc|].
      intros B. apply bytes_ok_app in B as [_ B]. now apply I.
    - pose proof (uint_safe 1 buf) as H. cbn [de].
      destruct (de_uint 1 buf) as [[x rest]| |]; cbn [rbind]; auto. destruct H as [[c ->] H2].
      destruct (negb _).
      + specialize (IHt rest). destruct (de utf8 t rest) as [[y r2]| |]; cbn [rbind]; auto.
        destruct IHt as [[c2 ->] I]. split; [exists (c ++ c2); now rewrite app_assoc|].
        intros B. apply bytes_ok_app in B as [_ B]. now apply I.
      + split; [now exists c|]. intros. exact I.
    - cbn [de]. specialize (IHt1 buf). destruct (de utf8 t1 buf) as [[x r1]| |]; cbn [rbind]; auto.
      destruct IHt1 as [[c ->] I1]. specialize (IHt2 r1).
      destruct (de utf8 t2 r1) as [[y r2]| |]; cbn [rbind]; auto. destruct IHt2 as [[c2 ->] I2].
      split; [exists (c ++ c2); now rewrite app_assoc|].
      intros B. split; [now apply I1|]. apply bytes_ok_app in B as [_ B]. now apply I2.
    - rewrite de_enum. pose proof (uint_safe 1 buf) as HU.
      destruct (de_uint 1 buf) as [[x rest]| |]; cbn [rbind]; auto. destruct HU as [[c ->] H2].
      pose proof (variants_safe x rest ts H 0%N) as V.
      destruct (de_variant x rest ts 0) as [[v r2]| |]; auto. destruct V as [[c2 ->] V].
      split; [exists (c ++ c2); now rewrite app_assoc|].
      intros B. apply bytes_ok_app in B as [_ B]. rewrite wf_enum. now apply V.
  Qed.

  (** ** Writing only depends on the room available through the final length *)
  Definition sized (w : nat -> res (list byte)) : Prop :=
    (exists b, forall room, w room = put b room) \/ (forall room, w room = Err).

  Lemma sized_put b : sized (put b).
  Proof. left. now exists b. Qed.

  Lemma sized_and_then w1 w2 : sized w1 -> sized w2 -> sized (and_then w1 w2).
  Proof.
    unfold and_then. intros [[b1 H1]|H1] [[b2 H2]|H2].
    - left. exists (b1 ++ b2). intros room. rewrite H1. unfold put. rewrite app_length.
      destruct (Nat.ltb_spec room (length b1)); cbn [rbind].
      + destruct (Nat.ltb_spec room (length b1 + length b2)); [reflexivity|lia].
      + rewrite H2. unfold put.
        destruct (Nat.ltb_spec (room - length b1) (length b2)),
          (Nat.ltb_spec room (length b1 + length b2)); cbn [rbind]; try lia; reflexivity.
    - right. intros room. rewrite H1. unfold put. destruct (_ <? _); cbn [rbind]; [reflexivity|].
      now rewrite H2.
    - right. intros room. now rewrite H1.
    - right. intros room. now rewrite H1.
  Qed.

  Lemma sized_usize x : sized (ser_usize x).
  Proof. unfold ser_usize. destruct (_ <? _)%N; [apply sized_put|]. now right. Qed.

  Lemma sized_nil : sized (fun _ => Ok []).
  Proof. left. exists []. intros. unfold put. reflexivity. Qed.

  Lemma sized_items {A} (s : A -> nat -> res (list byte)) l : (forall x, sized (s x)) -> sized (ser_items s l).
  Proof. intros H. induction l; cbn [ser_items]; [apply sized_nil|]. now apply sized_and_then. Qed.

  Theorem ser_sized t : forall v, sized (ser t v).
  Proof.
    induction t using ty_ind'; intros v; cbn [ser].
    - apply sized_put.
    - apply sized_usize.
    - apply sized_put.
    - apply sized_nil.
    - apply sized_and_then; [apply sized_usize|apply sized_put].
    - apply sized_put.
    - apply sized_put.
    - apply sized_put.
    - apply sized_and_then; [apply sized_usize|]. now apply sized_items.
    - destruct v; [|apply sized_put]. apply sized_and_then; [apply sized_put|auto].
    - now apply sized_and_then.
    - change (sized (ser_variant ts 0 v)). generalize 0%N. revert v.
      induction H as [|t ts S SS IH]; intros v i; [destruct v|].
      destruct v; cbn [ser_variant]; [|apply IH]. apply sized_and_then; [apply sized_put|apply S].
  Qed.
End WithUtf8.
