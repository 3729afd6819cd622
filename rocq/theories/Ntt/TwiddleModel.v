(** Model of crates/ntt/src/twiddle.rs.  [None] is an out-of-range panic. *)
Require Import Coq.Arith.Arith Coq.Lists.List Coq.Bool.Bool.
From Verif Require Import Base.Fld Base.Lists Base.Sums.
Import ListNotations.

Section Model.
  Variable F : field.
  Local Open Scope fld_scope.

  (** lines 308-312; [elem.square()] is [elem * elem] (C02) *)
  Definition subspace_map (e c : F) : F := e * e + c * e.

  (** lines 265-286: one entry per round, the unnormalised evaluations with the normalisation
      constant.  The loop body indexes [s_prev_evals[0]]. *)
  Fixpoint precompute_loop (rounds : nat) (norm : F) (evals : list F) : option (list (F * list F)) :=
    match rounds with
    | O => Some [(norm, evals)]
    | S rounds =>
        match evals with
        | [] => None
        | e0 :: rest =>
            do tl <- precompute_loop rounds (subspace_map e0 norm) (map (fun e => subspace_map e norm) rest);
            Some ((norm, evals) :: tl)
        end
    end.

  (** lines 288-297: [invert().expect(..)] *)
  Definition normalize (p : F * list F) : option (list F) :=
    let '(norm, evals) := p in
    if feqb norm 0 then None else Some (map (fun e => e * finv norm) evals).

  (** lines 243-300 *)
  Definition precompute_subspace_evals (basis : list F) : res (list (list F)) :=
    match basis with
    | [] => Err
    | b0 :: rest =>
        if feqb b0 1 then
          of_opt (do l <- precompute_loop (length rest) 1 rest; omap normalize l)
        else Err
    end.

  (** lines 166-171 *)
  Definition subset_sum (values : list F) (n_bits index : nat) : option F :=
    do vs <- omap (fun b => nth_error values b) (filter (fun b => Nat.testbit index b) (seq 0 n_bits));
    Some (fsum vs).

  (** The two implementations of the TwiddleAccess trait: lines 93-101 and 178-189. *)
  Inductive twiddle :=
  | Otf (log_n : nat) (offset : F) (s_evals : list F)
  | Pre (log_n : nat) (s_evals : list F).

  (** lines 124-127 and 208-211 *)
  Definition tw_log_n (t : twiddle) : nat := match t with Otf n _ _ => n | Pre n _ => n end.

  (** lines 138-141 and 224-227 *)
  Definition tw_get (t : twiddle) (i : nat) : option F :=
    match t with
    | Otf log_n offset s => do v <- subset_sum s log_n i; Some (offset + v)
    | Pre _ s => nth_error s i
    end.

  (** lines 143-147 and 229-232 *)
  Definition tw_get_pair (t : twiddle) (index_bits i : nat) : option (F * F) :=
    match t with
    | Otf _ offset s =>
        do v <- subset_sum s index_bits i;
        do e <- nth_error s index_bits;
        Some (offset + v, offset + v + e)
    | Pre _ s =>
        do a <- nth_error s i;
        do b <- nth_error s (Nat.lor (Nat.shiftl 1 index_bits) i);
        Some (a, b)
    end.

  (** A slice [&v[a..b]]. *)
  Definition slice {A} (v : list A) (a b : nat) : option (list A) :=
    if (a <=? b)%nat && (b <=? length v)%nat then Some (firstn (b - a) (skipn a v)) else None.

  (** lines 149-158 and 234-243; the subtraction underflows when [coset_bits > log_n] *)
  Definition tw_coset (t : twiddle) (coset_bits coset : nat) : option twiddle :=
    match t with
    | Otf log_n offset s =>
        if (log_n <? coset_bits)%nat then None else
        let n := (log_n - coset_bits)%nat in
        do hi <- slice s n (length s);
        do off <- subset_sum hi coset_bits coset;
        do lo <- slice s 0 n;
        Some (Otf n (offset + off) lo)
    | Pre log_n s =>
        if (log_n <? coset_bits)%nat then None else
        let n := (log_n - coset_bits)%nat in
        do sl <- slice s (Nat.shiftl coset n) (Nat.shiftl (coset + 1) n);
        Some (Pre n sl)
    end.

  (** lines 129-136 and 213-222 *)
  Definition tw_affine_subspace (t : twiddle) : option (list F * F) :=
    match t with
    | Otf _ offset s => Some (1 :: s, offset)
    | Pre log_n s =>
        do shift <- nth_error s 0;
        do l <- omap (fun i => do e <- nth_error s (Nat.shiftl 1 i); Some (e - shift)) (seq 0 log_n);
        Some (1 :: l, shift)
    end.

  (** lines 105-118 *)
  Definition otf_generate (basis : list F) : res (list twiddle) :=
    try ev <- precompute_subspace_evals basis;
    Ok (map (fun '(i, s) => Otf (length basis - 1 - i) 0 s) (combine (seq 0 (length ev)) ev)).

  (** lines 333-343: the inner loop appends [expanded[i] + eval] for the current length *)
  Definition expand_evals (s : list F) : list F :=
    fold_left (fun expanded e => expanded ++ map (fun x => x + e) expanded) s [0].

  Definition tw_s_evals (t : twiddle) : list F := match t with Otf _ _ s => s | Pre _ s => s end.

  (** lines 324-352 *)
  Definition expand_subspace_evals (otf : list twiddle) : list twiddle :=
    map (fun '(i, t) => Pre (length otf - 1 - i) (expand_evals (tw_s_evals t)))
        (combine (seq 0 (length otf)) otf).

  (** lines 195-198 *)
  Definition pre_generate (basis : list F) : res (list twiddle) :=
    try o <- otf_generate basis; Ok (expand_subspace_evals o).
End Model.

Arguments subspace_map {_} _ _.
Arguments precompute_loop {_} _ _ _.
Arguments normalize {_} _.
Arguments precompute_subspace_evals {_} _.
Arguments subset_sum {_} _ _ _.
Arguments Otf {_} _ _ _.
Arguments Pre {_} _ _.
Arguments tw_log_n {_} _.
Arguments tw_get {_} _ _.
Arguments tw_get_pair {_} _ _ _.
Arguments tw_coset {_} _ _ _.
Arguments tw_affine_subspace {_} _.
Arguments otf_generate {_} _.
Arguments expand_evals {_} _.
Arguments tw_s_evals {_} _.
Arguments expand_subspace_evals {_} _.
Arguments pre_generate {_} _.
