(** Model of crates/utils/src/sorting.rs.  [slice::sort_by] of the Rust standard library, a stable sort, is modelled
    by insertion sort. *)
Require Import Coq.Arith.Arith Coq.Lists.List Coq.Bool.Bool.
Import ListNotations.

Section Model.
  Context {A : Type}.

  (** [slice::sort_by] where [le a b] says that [a] does not compare greater than [b] *)
  Fixpoint insert (le : A -> A -> bool) (x : A) (l : list A) : list A :=
    match l with
    | [] => [x]
    | y :: r => if le x y then x :: y :: r else y :: insert le x r
    end.
  Definition sort_by (le : A -> A -> bool) (l : list A) : list A := fold_right (insert le) [] l.
End Model.

(** lines 5-8 *)
Fixpoint sorted_asc_windows (l : list nat) : bool :=
  match l with
  | a :: (b :: _) as r => negb (b <? a) && sorted_asc_windows r
  | _ => true
  end.

(** lines 32-46 *)
Definition stable_sort {T} (objs : list T) (key : T -> nat) (descending : bool) : list nat * list T :=
  let indexed := combine (seq 0 (length objs)) objs in
  let sorted := if descending then sort_by (fun a b => key (snd b) <=? key (snd a)) indexed
                else sort_by (fun a b => key (snd a) <=? key (snd b)) indexed in
  (map fst sorted, map snd sorted).

(** lines 66-77 *)
Definition unsort {T} (original_indices : list nat) (sorted_objs : list T) : list T :=
  map snd (sort_by (fun a b => fst a <=? fst b) (combine original_indices sorted_objs)).
