(** Model of crates/fast_compute/src/arith_circuit.rs: arithmetic circuits compiled to a sequence of steps on numbered slots, and
    their evaluation at one point and on a batch of points.

    Simplifications: the field of the circuit and that of the points are the same field [F].  A packed element is one scalar.
    Unsafe reads of memory that is not initialised or out of range, and failed index checks, are [None] (or [Panic]).  The degree and
    the tower level that the structure caches are left out (Math/ArithModel.v). *)
Require Import Coq.NArith.NArith Coq.Arith.Arith Coq.Lists.List Coq.Bool.Bool.
From Verif Require Import Base.Fld Base.Lists Base.Sums Math.ArithModel.
Import ListNotations.
Local Open Scope nat_scope.

Section Model.
  Variable F : field.

  (** lines 127-134, 154-158 *)
  Inductive arg : Type := AVar (index : nat) | ASlot (slot : nat) | AConst (v : F).
  (** lines 166-171 *)
  Inductive cstep : Type :=
  | CAdd (x y : arg)
  | CMul (x y : arg)
  | CSquare (x : arg)
  | CAddMul (target : nat) (x y : arg).

  (** lines 17-20: the two vectors are maps from indices; a position at or beyond the end of [converted_to_original] holds None
      (22-30, 35-37, 42-44: the vector is extended with None and out-of-range positions are not cleared). *)
  Record mapping : Type := mkMap { o2c : nat -> option nat; c2o : nat -> option nat }.
  Definition set {A} (f : nat -> A) (i : nat) (x : A) : nat -> A := fun j => if j =? i then x else f j.
  Definition map_new : mapping := mkMap (fun _ => None) (fun _ => None).
  (** lines 32-39 *)
  Definition register (m : mapping) (original converted : nat) : mapping :=
    mkMap (set (o2c m) original (Some converted)) (set (c2o m) converted (Some original)).
  (** lines 41-49 *)
  Definition clear_step (m : mapping) (converted : nat) : mapping :=
    match c2o m converted with
    | Some original => mkMap (set (o2c m) original None) (set (c2o m) converted None)
    | None => m
    end.

  Definition cstate : Type := (list cstep * mapping)%type.

  (** lines 109-121: the loop of a power, for the bits [i] listed in [bits] *)
  Fixpoint pow_loop (original : nat) (exp : N) (base : arg) (bits : list nat) (acc : arg) (st : cstate) : arg * cstate :=
    match bits with
    | [] => (acc, st)
    | i :: bits =>
      let (r, m) := st in
      let m := if i =? 0 then register m original (length r) else m in
      let r := r ++ [CSquare acc] in
      let acc := ASlot (length r - 1) in
      if N.testbit exp (N.of_nat i) then
        let r := r ++ [CMul acc base] in
        pow_loop original exp base bits (ASlot (length r - 1)) (r, m)
      else pow_loop original exp base bits acc (r, m)
    end.

  (** lines 56-125.  [fuel] bounds the recursion (see Math/ArithModel.v); [ilog2] of zero panics (107). *)
  Fixpoint convert_step (fuel : nat) (c : circuit F) (o : nat) (st : cstate) : option (arg * cstate) :=
    match fuel with
    | 0 => None
    | S fuel =>
      match o2c (snd st) o with
      | Some s => Some (ASlot s, st)
      | None =>
        do s <- nth_error c o;
        match s with
        | SConst v => Some (AConst v, st)
        | SVar i => Some (AVar i, st)
        | SAdd l r =>
          do x <- convert_step fuel c l st;
          let (left, st) := x in
          do rs <- nth_error c r;
          match left, rs with
          | ASlot t, SMul ml mr =>
            do x <- convert_step fuel c ml st;
            let (mleft, st) := x in
            do x <- convert_step fuel c mr st;
            let (mright, st) := x in
            let m := register (clear_step (snd st) t) o t in
            Some (ASlot t, (fst st ++ [CAddMul t mleft mright], m))
          | _, _ =>
            do x <- convert_step fuel c r st;
            let (right, st) := x in
            let m := register (snd st) o (length (fst st)) in
            Some (ASlot (length (fst st)), (fst st ++ [CAdd left right], m))
          end
        | SMul l r =>
          do x <- convert_step fuel c l st;
          let (left, st) := x in
          do x <- convert_step fuel c r st;
          let (right, st) := x in
          let m := register (snd st) o (length (fst st)) in
          Some (ASlot (length (fst st)), (fst st ++ [CMul left right], m))
        | SPow b e =>
          do x <- convert_step fuel c b st;
          let (acc, st) := x in
          if (e =? 0)%N then None else Some (pow_loop o e acc (rev (seq 0 (N.to_nat (N.log2 e)))) acc st)
        end
      end
    end.
  (** lines 13-15 and 127-130 *)
  Definition convert_circuit_steps (c : circuit F) : option (list cstep * arg) :=
    do x <- convert_step (length c) c (length c - 1) ([], map_new);
    Some (fst (snd x), fst x).

  (** *** Evaluation (lines 288-363 and 365-473), for a type [V] of slot contents *)
  Section Run.
    Variable V : Type.
    Variable add mul : V -> V -> V.
    Variable cst : F -> V.
    Variable query : list V.

    (** lines 307-318, 141-152 and 478-540 *)
    Definition arg_value (slots : list (option V)) (a : arg) : option V :=
      match a with
      | AVar i => nth_error query i
      | ASlot s => match nth_error slots s with Some (Some v) => Some v | _ => None end
      | AConst v => Some (cst v)
      end.
    (** lines 320-352 and 376-463: step [i] writes slot [i], or changes an earlier slot and leaves slot [i] as it is *)
    Definition run_step (slots : list (option V)) (s : cstep) : option (list (option V)) :=
      match s with
      | CAdd x y => do a <- arg_value slots x; do b <- arg_value slots y; Some (slots ++ [Some (add a b)])
      | CMul x y => do a <- arg_value slots x; do b <- arg_value slots y; Some (slots ++ [Some (mul a b)])
      | CSquare x => do a <- arg_value slots x; Some (slots ++ [Some (mul a a)])
      | CAddMul t x y =>
        do a <- arg_value slots x; do b <- arg_value slots y;
        do v <- arg_value slots (ASlot t);
        Some (upd slots t (Some (add v (mul a b))) ++ [None])
      end.
    Definition run (steps : list cstep) : option (list (option V)) := ofold run_step steps [].
    Definition run_result (p : list cstep * arg) : option V := do slots <- run (fst p); arg_value slots (snd p).
  End Run.

  (** lines 179-188 *)
  Record poly : Type := mkPoly { cp_expr : circuit F; cp_steps : list cstep; cp_retval : arg; cp_n_vars : nat }.
  (** lines 227-243; [char2] and checked arithmetic as for [optimize] in Math/ArithModel.v *)
  Definition poly_new (char2 : bool) (expr : circuit F) : res poly :=
    match optimize false char2 expr with
    | None => Panic
    | Some e => match convert_circuit_steps e with Some (steps, ret) => Ok (mkPoly e steps ret (n_vars e)) | None => Panic end
    end.
  (** lines 248-269 *)
  Definition poly_with_n_vars (char2 : bool) (n : nat) (expr : circuit F) : res poly :=
    match optimize false char2 expr with
    | None => Panic
    | Some e =>
      if n <? n_vars e then Err
      else match convert_circuit_steps e with Some (steps, ret) => Ok (mkPoly e steps ret n) | None => Panic end
    end.
  (** lines 296-363 *)
  Definition poly_evaluate (p : poly) (query : list F) : res F :=
    if negb (length query =? cp_n_vars p) then Err
    else match run_result F fadd fmul (fun v => v) query (cp_steps p, cp_retval p) with Some v => Ok v | None => Panic end.

  Definition zip_with (f : F -> F -> F) (a b : list F) : list F := map (fun p => f (fst p) (snd p)) (combine a b).
  (** lines 365-473; [rows] has one row of [row_len] values per variable, the result is what is written to [evals], a slice of
      [out_len] elements. *)
  Definition poly_batch_evaluate (p : poly) (rows : list (list F)) (row_len out_len : nat) : res (list F) :=
    if negb (row_len =? out_len) then Err
    else match run_result (list F) (zip_with fadd) (zip_with fmul) (fun v => repeat v row_len) rows (cp_steps p, cp_retval p) with
         | Some v => Ok v | None => Panic end.
End Model.

Arguments AVar {_} _.
Arguments ASlot {_} _.
Arguments AConst {_} _.
Arguments CAdd {_} _ _.
Arguments CMul {_} _ _.
Arguments CSquare {_} _.
Arguments CAddMul {_} _ _ _.
Arguments convert_step {_} _ _ _ _.
Arguments pow_loop {_} _ _ _ _ _ _.
Arguments convert_circuit_steps {_} _.
Arguments mkPoly {_} _ _ _ _.
Arguments cp_expr {_} _.
Arguments cp_steps {_} _.
Arguments cp_retval {_} _.
Arguments cp_n_vars {_} _.
Arguments poly_new {_} _ _.
Arguments poly_with_n_vars {_} _ _ _.
Arguments poly_evaluate {_} _ _.
Arguments poly_batch_evaluate {_} _ _ _ _.
