(** Model of crates/core/src/protocols/gkr_gpa/prove.rs.

    The eq-ind sumcheck prover is a parameter: a state with the operations of [prover_ops] and a function that builds it
    (crates/core/src/protocols/sumcheck/prove/eq_ind.rs lines 128-236).  Packed vectors are lists of scalars,
    [2^lw] per packed element. *)
Require Import Coq.Arith.Arith Coq.Lists.List Coq.Bool.Bool.
From Verif Require Import Base.Fld Base.Lists Base.Sums Math.UnivariateModel Protocol.Proto Utils.SortModel
  Sumcheck.SumcheckModel Sumcheck.BatchProverModel Sumcheck.EqIndModel Sumcheck.ZerocheckModel Gkr.GpaModel.
Import ListNotations.

Section Model.
  Variable F : field.
  Local Open Scope fld_scope.
  Variable St : Type.
  Variable ops : prover_ops F St.

  (** a multilinear: its values, and the value and the length of its constant suffix *)
  Local Notation suffixed := (list F * (F * nat))%type.
  Variable build : order -> nat -> list suffixed -> list F -> list (comp F * F) -> res St.

  (** [GrandProductProverState] (lines 167-177): remaining layers, from the largest, and the current evaluation *)
  Local Notation gp_state := (list (list F) * F)%type.

  (** lines 185-204 *)
  Definition gps_new (c : nat * F) (layers : list (list F)) : res gp_state :=
    if negb (fst c =? gp_n_vars layers)%nat || negb (feqb (grand_product_evaluation layers) (snd c)) then Err
    else match layers with
         | [] => Panic
         | _ => Ok (removelast layers, snd c)
         end.

  (** lines 243-261: the two halves of a layer with [n + 1] variables *)
  Definition stage_pair (lw n : nat) (layer : list F) : list F * list F :=
    if (lw <=? n)%nat && (length layer / 2 ^ lw <? 2 ^ (n - lw))%nat then (layer, [])
    else if (lw <=? n)%nat then (firstn (2 ^ (n - lw) * 2 ^ lw) layer, skipn (2 ^ (n - lw) * 2 ^ lw) layer)
    else
      let at_ i := match layer with [] => 1 | _ => nth i layer 0 end in
      (map at_ (seq 0 (2 ^ n)) ++ repeat 0 (2 ^ lw - 2 ^ n),
       map (fun i => at_ (i + 2 ^ n)%nat) (seq 0 (2 ^ n)) ++ repeat 0 (2 ^ lw - 2 ^ n)).

  (** lines 263-267 *)
  Definition with_suffix (n : nat) (m : list F) : suffixed := (m, (f1, (2 ^ n - length m)%nat)).

  (** lines 228-268 for the layers: what is popped and the multilinears *)
  Fixpoint stage_layers (lw n : nat) (states : list gp_state) : res (list gp_state * list suffixed) :=
    match states with
    | [] => Ok ([], [])
    | (layers, eval) :: rest =>
      match layers with
      | [] => Panic
      | _ =>
        let '(m0, m1) := stage_pair lw n (last layers []) in
        try r <- stage_layers lw n rest;
        Ok ((removelast layers, eval) :: fst r, with_suffix n m0 :: with_suffix n m1 :: snd r)
      end
    end.

  (** lines 206-280; the composite claims are those of the verifier for the current evaluations *)
  Definition stage_sumcheck (lw : nat) (o : order) (states : list gp_state) (point : list F) : res (list gp_state * St) :=
    let n := length point in
    try sums <- layer_sums (map (fun s => (point, snd s)) states);
    try r <- stage_layers lw n states;
    try p <- build o n (snd r) point sums;
    Ok (fst r, p).

  (** lines 144-161: [partition_point] on states sorted by the number of remaining layers is the index of the first
      one without layers *)
  Fixpoint split_finished (states : list gp_state) : list gp_state * list gp_state :=
    match states with
    | [] => ([], [])
    | s :: rest => match fst s with
                   | [] => ([], states)
                   | _ => let '(a, b) := split_finished rest in (s :: a, b)
                   end
    end.

  (** lines 286-295 *)
  Definition gps_finalize (point : list F) (s : gp_state) : res (list F * F) :=
    match fst s with [] => Ok (point, snd s) | _ => Err end.

  Definition process_finished_provers (states : list gp_state) (fin : list (list F * F)) (point : list F)
      : res (list gp_state * list (list F * F)) :=
    let '(active, finished) := split_finished states in
    try l <- collect_res (map (gps_finalize point) (rev finished));
    Ok (active, fin ++ l).

  (** lines 67-127; [fuel] bounds the number of iterations of the loop (running out is [Panic]) *)
  Fixpoint gpa_prove_loop (fuel lw : nat) (o : order) (states : list gp_state) (fin : list (list F * F)) (point : list F)
      : pproto F (list (list F * F)) :=
    put st <- PRet (process_finished_provers states fin point);
    match fst st with
    | [] => PRet (Ok (snd st))
    | _ =>
      match fuel with
      | O => PRet Panic
      | S fuel' =>
        put sp <- PRet (stage_sumcheck lw o (fst st) point);
        put b <- bp_new ops [snd sp];
        put out <- bp_run ops b;
        put c <- psample;
        let challenges := match o with HighToLow => rev (fst out) | LowToHigh => fst out end in
        if negb (length challenges =? length point)%nat then PRet Panic
        else match snd out with
             | [] => PRet Panic
             | evals :: _ =>
               let states' := map (fun se => (fst (fst se), extrapolate_line (fst (snd se)) (snd (snd se)) c))
                                (combine (fst sp) (pairs evals)) in
               gpa_prove_loop fuel' lw o states' (snd st) (challenges ++ [c])
             end
      end
    end.

  (** lines 33-142 *)
  Definition gpa_prove (lw : nat) (o : order) (witnesses : list (list (list F))) (claims : list (nat * F))
      : pproto F (list (list F * F)) :=
    if negb (length witnesses =? length claims)%nat then PRet Err
    else
      put states <- PRet (collect_res (map (fun wc => gps_new (snd wc) (fst wc)) (combine witnesses claims)));
      let '(idx, sorted) := stable_sort states (fun s => length (fst s)) true in
      let fuel := match sorted with [] => 0%nat | s :: _ => length (fst s) end in
      put fin <- gpa_prove_loop fuel lw o sorted [] [];
      PRet (Ok (unsort idx (rev fin))).
End Model.

Arguments gps_new {_} _ _.
Arguments stage_pair {_} _ _ _.
Arguments with_suffix {_} _ _.
Arguments stage_layers {_} _ _ _.
Arguments stage_sumcheck {_ _} _ _ _ _ _.
Arguments split_finished {_} _.
Arguments gps_finalize {_} _ _.
Arguments process_finished_provers {_} _ _ _.
Arguments gpa_prove_loop {_ _} _ _ _ _ _ _ _ _.
Arguments gpa_prove {_ _} _ _ _ _ _ _.
