(** Specification for the evaluation-claim reduction (C44): what the values of every kind of oracle
    are, when an evaluation claim is true and what the deferred obligations of the verifier mean. *)
Require Import Coq.Arith.PeanoNat Coq.Lists.List Coq.Bool.Bool.
From Verif Require Import Base.Fld Base.Lists Base.Sums Math.MleSpec Math.MleModel Math.ArithModel Math.ArithProofs
  Field.TowerProofs Transparent.TransparentModel Transparent.TransparentProps Transparent.TowerBasisProps
  Transparent.ShiftModel Evalcheck.OracleModel Evalcheck.EvalModel.
Import ListNotations.

Section Spec.
  Variable L : nat.
  Notation F := (TF L).
  Local Open Scope fld_scope.

  (** An assignment of values: [V id x] is the value of oracle [id] at the hypercube point with
      index [x]. *)
  Definition values := nat -> nat -> F.

  (** Value at [x] of the column [a] shifted by [o] inside blocks of [2^b] values: to higher indices
      (left), cyclically or with zeros shifted in, or to lower indices (right). *)
  Definition shifted_value (sv : shift_variant) (b o : nat) (a : nat -> F) (x : nat) : F :=
    let y := (x mod 2 ^ b)%nat in
    match sv with
    | CircularLeft => a (x - y + (y + (2 ^ b - o)) mod 2 ^ b)%nat
    | LogicalLeft => if (o <=? y)%nat then a (x - o)%nat else 0
    | LogicalRight => if (y + o <? 2 ^ b)%nat then a (x + o)%nat else 0
    end.

  (** The values of the oracle [id] are what its definition says, given the values of the oracles it
      refers to; [n] is its number of variables. *)
  Definition defined_at (os : oset L) (V : values) (id n : nat) (v : variant L) (x : nat) : Prop :=
    match v with
    | Committed => True
    | Transparent p => mv_eval p (vertex n x) = Ok (V id x)
    | Structured c => evaluate c (vertex n x ++ repeat 0 (n_vars c - n)) = Some (V id x)
    | Repeating i k => V id x = V i (x mod 2 ^ (n - k))%nat
    | Projected i vs s => V id x = mle (V i) (vertex s x ++ vs ++ vertex (n - s) (x / 2 ^ s))
    | Shifted i o b sv => V id x = shifted_value sv b o (V i) x
    | Packed i d => forall inner, nth_error os i = Some (Some inner) ->
        V id x = sumn (2 ^ d) (fun k => basis_product L (o_level inner) k * V i (x * 2 ^ d + k)%nat)
    | LinearCombination _ off inner =>
        V id x = off + fold_right (fun ic acc => snd ic * V (fst ic) x + acc) 0 inner
    | ZeroPadded i pad nz s =>
        V id x = if ((x / 2 ^ s) mod 2 ^ pad =? nz)%nat
                 then V i (x mod 2 ^ s + 2 ^ s * (x / 2 ^ (s + pad)))%nat else 0
    | Composite _ ids c => evaluate c (map (fun i => V i x) ids) = Some (V id x)
    end.

  Definition consistent (os : oset L) (V : values) : Prop :=
    forall id o, nth_error os id = Some (Some o) ->
      forall x, (x < 2 ^ o_nvars o)%nat -> defined_at os V id (o_nvars o) (o_variant o) x.

  (** Oracle [i] is older than [id] and has [m] variables. *)
  Definition refers (os : oset L) (id i m : nat) : Prop :=
    (i < id)%nat /\ exists o, nth_error os i = Some (Some o) /\ o_nvars o = m.

  (** The polynomial has [n] variables and evaluates to the extension of [t] at the points of that many coordinates. *)
  Definition extends_to (p : mvpoly F) (n : nat) (t : nat -> F) : Prop :=
    mv_nvars p = n /\ forall q, length q = n -> mv_eval p q = Ok (mle t q).
  Lemma evaluates_extends p n t : evaluates_to F p n t -> extends_to p n t.
  Proof. intros [N E]. split; [exact N|]. intros q Hq. now rewrite E, Hq, Nat.eqb_refl. Qed.

  (** Well-formed definitions.  The first three cases are obligations of whoever adds the oracle: a
      transparent polynomial and a structured circuit (with the missing variables set to zero) must
      be multilinear.  The rest is checked by the functions that add oracles (C66). *)
  Definition variant_ok (os : oset L) (id n : nat) (v : variant L) : Prop :=
    match v with
    | Committed => True
    | Transparent p => exists t, extends_to p n t
    | Structured c => (n <= n_vars c)%nat /\
        exists t, forall q, length q = n -> evaluate c (q ++ repeat 0 (n_vars c - n)) = Some (mle t q)
    | Repeating i k => (k <= n)%nat /\ refers os id i (n - k)
    | Projected i vs s => (s <= n)%nat /\ refers os id i (n + length vs)
    | Shifted i o b _ => (b <= n /\ 0 < o < 2 ^ b)%nat /\ refers os id i n
    | Packed i d => refers os id i (n + d)
    | LinearCombination m _ inner => m = n /\ forall i c, In (i, c) inner -> refers os id i n
    | ZeroPadded i pad nz s => (s + pad <= n)%nat /\ refers os id i (n - pad)
    | Composite m ids c => m = n /\ (forall i, In i ids -> refers os id i n) /\
        wf c /\ c <> [] /\ (n_vars c <= length ids)%nat
    end.

  Definition oset_ok (os : oset L) : Prop :=
    forall id o, nth_error os id = Some (Some o) -> variant_ok os id (o_nvars o) (o_variant o).

  (** The claimed value is the value of the multilinear extension at the claimed point. *)
  Definition claim_true (V : values) (c : claim L) : Prop := mle (V (c_id c)) (c_point c) = c_eval c.

  Definition claim_sized (os : oset L) (c : claim L) : Prop :=
    exists o, nth_error os (c_id c) = Some (Some o) /\ length (c_point c) = o_nvars o.

  (** The composition [c] of the oracles [ids] at the hypercube point [x]. *)
  Definition comp_at (V : values) (ids : list nat) (c : circuit F) (x : nat) : F :=
    match evaluate c (map (fun i => V i x) ids) with
    | Some v => v
    | None => 0
    end.

  (** A deferred sumcheck over [n] variables holds. *)
  Definition sum_true (V : values) (n : nat) (u : ungrouped L) : Prop :=
    sumn (2 ^ n) (comp_at V (u_ids u) (u_comp u)) = u_sum u.
  (** A deferred claim on the multilinear extension of a composition at the point [p] holds. *)
  Definition mle_true (V : values) (p : list F) (u : ungrouped L) : Prop :=
    mle (comp_at V (u_ids u) (u_comp u)) p = u_sum u.

  (** Everything the verifier has left for later is true. *)
  Definition obligations (V : values) (st : vstate L) : Prop :=
    (forall c, In c (st_committed st) -> claim_true V c) /\
    (forall n b u, nth_error (st_sums st) n = Some b -> In u b -> sum_true V n u) /\
    (forall p b u, In (p, b) (st_mles st) -> In u b -> mle_true V p u).

  (** The compositions left for later are over existing oracles of the right size. *)
  Definition ungrouped_ok (os : oset L) (n : nat) (u : ungrouped L) : Prop :=
    wf (u_comp u) /\ u_comp u <> [] /\ (n_vars (u_comp u) <= length (u_ids u))%nat /\
    forall i, In i (u_ids u) -> exists o, nth_error os i = Some (Some o) /\ o_nvars o = n.

  Definition vstate_ok (st : vstate L) : Prop :=
    oset_ok (st_oracles st) /\
    (forall n b u, nth_error (st_sums st) n = Some b -> In u b -> ungrouped_ok (st_oracles st) n u /\ u_ids u <> []) /\
    (forall p b u, In (p, b) (st_mles st) -> In u b -> ungrouped_ok (st_oracles st) (length p) u) /\
    (forall c, In c (st_committed st) -> claim_sized (st_oracles st) c).
End Spec.

Arguments shifted_value {_} _ _ _ _ _.
Arguments defined_at {_} _ _ _ _ _ _.
Arguments consistent {_} _ _.
Arguments extends_to {_} _ _ _.
Arguments evaluates_extends {_} _ _ _ _.
Arguments refers {_} _ _ _ _.
Arguments variant_ok {_} _ _ _ _.
Arguments oset_ok {_} _.
Arguments claim_true {_} _ _.
Arguments claim_sized {_} _ _.
Arguments comp_at {_} _ _ _ _.
Arguments sum_true {_} _ _ _.
Arguments mle_true {_} _ _ _.
Arguments obligations {_} _ _.
Arguments ungrouped_ok {_} _ _ _.
Arguments vstate_ok {_} _.
