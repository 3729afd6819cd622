(** slice::chunks (Rust core library): consecutive pieces of [n] elements, the last possibly shorter. *)
Require Import Coq.Arith.Arith Coq.Lists.List Lia.
Require Import Verif.Base.Lists.
Import ListNotations.

Fixpoint chunks_fuel {A} (fuel n : nat) (l : list A) : list (list A) :=
  match fuel, l with
  | _, [] => []
  | O, _ => []
  | S f, _ => firstn n l :: chunks_fuel f n (skipn n l)
  end.
Definition chunks {A} (n : nat) (l : list A) : list (list A) := chunks_fuel (length l) n l.

Lemma chunks_fuel_nth_error {A} n : 0 < n -> forall fuel (l : list A) i, length l <= fuel ->
  nth_error (chunks_fuel fuel n l) i = if i * n <? length l then Some (firstn n (skipn (i * n) l)) else None.
Proof.
  intros Hn. induction fuel; intros l i L.
  - destruct l; [|cbn in L; lia]. cbn. destruct i; destruct (Nat.ltb_spec (0 * n) 0); auto; try lia; destruct (i * n); auto.
  - destruct l as [|x l].
    + cbn [chunks_fuel length]. destruct (Nat.ltb_spec (i * n) 0); [lia|]. now destruct i.
    + cbn [chunks_fuel]. set (m := x :: l) in *. destruct i.
      * cbn [nth_error Nat.mul skipn]. unfold m at 2. reflexivity.
      * cbn [nth_error]. rewrite IHfuel.
        -- rewrite skipn_length, skipn_add. replace (n + i * n) with (S i * n) by lia.
           destruct (Nat.ltb_spec (i * n) (length m - n)), (Nat.ltb_spec (S i * n) (length m)); auto; nia.
        -- rewrite skipn_length. change (length m <= S fuel) in L. assert (0 < length m) by (cbn; lia). lia.
Qed.

Lemma chunks_nth_error {A} n (l : list A) i : 0 < n ->
  nth_error (chunks n l) i = if i * n <? length l then Some (firstn n (skipn (i * n) l)) else None.
Proof. intros. now apply chunks_fuel_nth_error. Qed.

Lemma chunks_length {A} n q (l : list A) : 0 < n -> length l = q * n -> length (chunks n l) = q.
Proof.
  intros Hn L. destruct (Nat.lt_trichotomy (length (chunks n l)) q) as [H|[H|H]]; auto.
  - pose proof (chunks_nth_error n l (length (chunks n l)) Hn) as E.
    rewrite (proj2 (nth_error_None _ _)) in E by lia.
    destruct (Nat.ltb_spec (length (chunks n l) * n) (length l)); [discriminate|]. nia.
  - destruct (nth_error_ex (chunks n l) q H) as [x E]. rewrite chunks_nth_error in E by auto.
    destruct (Nat.ltb_spec (q * n) (length l)); [lia|discriminate].
Qed.
