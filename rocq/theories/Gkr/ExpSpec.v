(** Specification of exponentiation claims, independent of the protocol. *)
Require Import Coq.Arith.Arith Coq.Lists.List Coq.Bool.Bool.
From Verif Require Import Base.Fld Base.Lists Base.Sums Math.MleSpec.
Import ListNotations.

Section Spec.
  Variable F : field.
  Local Open Scope fld_scope.

  (** At every vertex [x] of a hypercube with [xi_n] variables, a base and an exponent of [xi_w] bits, least
      significant first; the base is the same everywhere or a column. *)
  Record exp_inst : Type := mkXi { xi_n : nat; xi_w : nat; xi_bit : nat -> nat -> bool; xi_base : F + (nat -> F) }.

  Definition base_at (i : exp_inst) (x : nat) : F := match xi_base i with inl g => g | inr t => t x end.
  (** the number with bits [b 0 .. b (w-1)] *)
  Fixpoint number (b : nat -> bool) (w : nat) : nat :=
    match w with O => 0 | S w' => (number b w' + 2 ^ w' * Nat.b2n (b w'))%nat end.
  Definition exponent_at (i : exp_inst) (x : nat) : nat := number (fun k => xi_bit i k x) (xi_w i).

  (** the column of results *)
  Definition power_table (i : exp_inst) (x : nat) : F := fpow (base_at i x) (exponent_at i x).

  (** the column of bit [k] *)
  Definition bit_table (i : exp_inst) (k x : nat) : F := if xi_bit i k x then 1 else 0.

  (** The columns about which layer [l] yields claims: bits are consumed from the most significant one with a fixed
      base, from the least significant one otherwise, and then the base is claimed as well. *)
  Definition out_tabs (i : exp_inst) (l : nat) : list (nat -> F) :=
    match xi_base i with
    | inl _ => [bit_table i (xi_w i - 1 - l)]
    | inr t => [bit_table i l; t]
    end.
  (** the exponents that are long enough to take part in layer [l] *)
  Definition alive (l : nat) (is : list exp_inst) : list exp_inst := filter (fun i => l <? xi_w i)%nat is.
  Definition max_width (is : list exp_inst) : nat := fold_right Nat.max 0%nat (map xi_w is).
  Definition max_exp_vars (is : list exp_inst) : nat := fold_right Nat.max 0%nat (map xi_n is).

  (** a claim is a point with a value; it is true of a column when that is the value of its multilinear extension *)
  Definition claim_holds (t : nat -> F) (c : list F * F) : Prop := snd c = mle t (fst c).
  Definition layer_true (is : list exp_inst) (l : nat) (cs : list (list F * F)) : Prop :=
    Forall2 claim_holds (flat_map (fun i => out_tabs i l) (alive l is)) cs.
  (** every claim of every layer is true *)
  Definition layers_true (is : list exp_inst) (layers : list (list (list F * F))) : Prop :=
    Forall2 (layer_true is) (seq 0 (max_width is)) layers.

  (** Claims about numbered columns. *)
  Definition eval_claim_holds (tab : nat -> nat -> F) (c : nat * list F * F) : Prop :=
    let '(id, p, e) := c in e = mle (tab id) p.
End Spec.
Arguments mkXi {_} _ _ _ _.
Arguments xi_n {_} _.
Arguments xi_w {_} _.
Arguments xi_bit {_} _ _ _.
Arguments xi_base {_} _.
Arguments base_at {_} _ _.
Arguments exponent_at {_} _ _.
Arguments power_table {_} _ _.
Arguments bit_table {_} _ _ _.
Arguments out_tabs {_} _ _.
Arguments alive {_} _ _.
Arguments max_width {_} _.
Arguments max_exp_vars {_} _.
Arguments claim_holds {_} _ _.
Arguments layer_true {_} _ _ _.
Arguments layers_true {_} _ _.
Arguments eval_claim_holds {_} _ _.
