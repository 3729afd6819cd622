(** The tower field with 16 elements, used for concrete examples: [el a] is the element with bit
    pattern [a], [bits x] the bit pattern of [x]. *)
Require Import Coq.NArith.NArith Coq.Lists.List.
From Verif Require Import Base.Fld Base.Sums Field.TowerProofs.
Import ListNotations.

Definition X16 : field := TF 2.
Definition el (a : N) : X16 := dec 2 a.
Definition els (l : list N) : list X16 := map el l.
Definition bits (x : X16) : N := enc 2 x.
Definition shown (l : res (list X16)) : res (list N) :=
  match l with Ok l => Ok (map bits l) | Err => Err | Panic => Panic end.
