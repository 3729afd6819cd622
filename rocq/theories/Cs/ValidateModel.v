(** Model of crates/core/src/constraint_system/validate.rs: the check of a witness against a constraint system, for the tower
    field of level [L].

    Simplifications: errors are not distinguished and loops run in order (a parallel loop may report another error first);
    names are left out; [usize] is unbounded; the packed type [P] of the witness has one scalar, so that the packed
    representation of a column of a subfield is a list of field elements (wider types are in Math/MleModel.v, C57). *)
Require Import Coq.NArith.NArith Coq.Arith.Arith Coq.Lists.List Coq.Bool.Bool.
From Verif Require Import Base.Fld Base.Lists Base.Sums Math.MleSpec Math.MleModel Math.ArithModel Field.TowerModel Field.TowerProofs
  Transparent.TransparentModel Transparent.ShiftModel Compute.CircuitPolyModel Evalcheck.OracleModel Evalcheck.SymbolicModel
  Cs.ChannelModel Cs.FlushModel Cs.VerifyModel.
Import ListNotations.
Local Close Scope N_scope.
Local Open Scope nat_scope.

Section Model.
  Variable L : nat.
  Notation F := (TF L).

  (** core/src/witness.rs lines 10-36 and math/src/mle_adapters.rs MLEEmbeddingAdapter: a column with values in the subfield of
      level [en_level]; [en_words] is the memory that holds it, [packed_evals] (lines 302-304) *)
  Record entry := mkEntry { en_nvars : nat; en_level : nat; en_words : list F }.
  (** scalar [j] of level [l] of a word *)
  Definition component (l j : nat) (x : F) : F := dec L (N.land (N.shiftr (enc L x) (N.of_nat (j * 2 ^ l))) (N.ones (N.of_nat (2 ^ l)))).
  Definition en_evals (e : entry) : list F :=
    flat_map (fun x => map (fun j => component (en_level e) j x) (seq 0 (2 ^ (L - en_level e)))) (en_words e).
  Definition en_mle (e : entry) : mlext F := mkMle (en_nvars e) (en_evals e).
  Definition index := nat -> option entry.
  (** witness.rs lines 58-70 *)
  Definition get_entry (w : index) (id : nat) : res entry := match w id with Some e => Ok e | None => Err end.
  (** mle_adapters.rs lines 82-98 *)
  Definition value (e : entry) (i : nat) : res F := MleModel.evaluate_on_hypercube (L - en_level e) (en_mle e) i.
  (** the same as a witness of Cs/ChannelModel.v *)
  Definition polys (w : index) : witness F :=
    fun id => match w id with Some e => Some (ChannelModel.mkPoly F (en_nvars e) (fun i => nth i (en_evals e) f0)) | None => None end.

  (** a loop with [?] *)
  Fixpoint all_ok {A} (f : A -> res unit) (l : list A) : res unit :=
    match l with [] => Ok tt | a :: l => try _ <- f a; all_ok f l end.
  (** lines 299-314 *)
  Definition check_eval (expected got : res F) : res unit :=
    try e <- expected; try g <- got; if feqb e g then Ok tt else Err.

  (** polynomial/multivariate.rs lines 191-216 and 231-239 *)
  Definition composite_ok (n : nat) (p : poly F) (ms : list entry) : bool :=
    (cp_n_vars p =? length ms) && forallb (fun m => en_nvars m =? n) ms.
  Definition composite_at (p : poly F) (ms : list entry) (i : nat) : res F :=
    try vs <- rmap (fun m => value m i) ms; poly_evaluate p vs.

  (** protocols/sumcheck/prove/zerocheck.rs lines 40-75 *)
  Definition validate_zeros (ms : list entry) (zs : list (poly F)) : res unit :=
    let n := match ms with [] => 0 | m :: _ => en_nvars m end in
    if negb (forallb (fun m => en_nvars m =? n) ms) then Err
    else all_ok (fun p => if negb (composite_ok n p ms) then Err
                          else all_ok (fun j => try v <- composite_at p ms j; if feqb v f0 then Ok tt else Err) (seq 0 (2 ^ n))) zs.
  (** lines 48-79; a [Sum] predicate is [unimplemented!] *)
  Definition validate_set (w : index) (sizes : list nat) (t : table_constraints L) : res unit :=
    try size <- of_opt (nth_error sizes (tc_table L t));
    if size =? 0 then Ok tt
    else match tc_ids L t with
         | [] => Ok tt
         | _ => try ms <- rmap (get_entry w) (tc_ids L t);
                try zs <- rmap (fun c => match snd c with None => poly_with_n_vars true (length ms) (fst c) | Some _ => Panic end) (tc_constraints L t);
                validate_zeros ms zs
         end.

  (** lines 325-350 *)
  Definition validate_nonzero (os : oset L) (w : index) (ids : list nat) : res unit :=
    all_ok (fun id => try z <- is_zero_sized L os id;
                      if (z : bool) then Ok tt
                      else try e <- get_entry w id;
                           all_ok (fun i => try v <- value e i; if feqb v f0 then Err else Ok tt) (seq 0 (2 ^ en_nvars e))) ids.

  (** content of freshly allocated memory of the given length *)
  Variable uninit : nat -> list F.

  (** lines 93-297 *)
  Definition validate_virtual (os : oset L) (w : index) (id : nat) (o : oracle L) : res unit :=
    let n := o_nvars o in
    try e <- get_entry w id;
    if negb (en_nvars e =? n) then Err
    else
    let rows := seq 0 (2 ^ n) in
    match o_variant o with
    | Committed => Ok tt
    | Transparent p => all_ok (fun i => check_eval (mv_eval p (vertex n i)) (value e i)) rows
    | Structured c => all_ok (fun i => check_eval (match evaluate c (vertex (n_vars c) i) with Some v => Ok v | None => Err end) (value e i)) rows
    | LinearCombination _ off inner =>
        try ps <- rmap (fun ic => get_entry w (fst ic)) inner;
        all_ok (fun i => check_eval (try vs <- rmap (fun pc => try v <- value (fst pc) i; Ok (fmul v (snd pc))) (combine ps (map snd inner));
                                     Ok (fold_left fadd vs off)) (value e i)) rows
    | Repeating k _ =>
        try u <- get_entry w k;
        try m <- n_vars_of os k;
        all_ok (fun i => check_eval (value u (i mod 2 ^ m)) (value e i)) rows
    | Shifted k o b sv =>
        try u <- get_entry w k;
        let len := 2 ^ b in
        let blocks := map (fun j => j * len) (seq 0 ((2 ^ n + len - 1) / len)) in
        all_ok (fun start =>
          match sv with
          | CircularLeft =>
              if len <? o then Panic
              else all_ok (fun y => check_eval (value u (start + (y + (len - o)) mod len)) (value e (start + y))) (seq 0 len)
          | LogicalLeft =>
              try _ <- all_ok (fun y => check_eval (Ok f0) (value e (start + y))) (seq 0 o);
              all_ok (fun y => check_eval (value u (start + y - o)) (value e (start + y))) (seq o (len - o))
          | LogicalRight =>
              if len <? o then Panic
              else
              try _ <- all_ok (fun y => check_eval (value u (start + y + o)) (value e (start + y))) (seq 0 (len - o));
              all_ok (fun y => check_eval (Ok f0) (value e (start + y))) (seq (len - o) o)
          end) blocks
    | Projected k vs s =>
        try u <- get_entry w k;
        try q <- query_expand 0 vs;
        try m <- evaluate_partial (en_level u =? L) 0 (en_mle u) q s (uninit (2 ^ (en_nvars u - length vs)));
        all_ok (fun i => check_eval (MleModel.evaluate_on_hypercube 0 m i) (value e i)) rows
    | ZeroPadded k pad nz s =>
        try u <- get_entry w k;
        try m <- me_zero_pad 0 (en_mle u) pad s nz;
        all_ok (fun i => check_eval (MleModel.evaluate_on_hypercube 0 m i) (value e i)) (seq 0 (2 ^ pad))
    | Packed k _ =>
        try u <- get_entry w k;
        if key_eqb F (en_words u) (en_words e) then Ok tt else Err
    | Composite _ ids c =>
        try ps <- rmap (get_entry w) ids;
        match poly_with_n_vars true (length ids) c with
        | Ok p => if negb (composite_ok n p ps) then Err
                  else all_ok (fun i => check_eval (composite_at p ps i) (value e i)) rows
        | _ => Panic
        end
    end.

  (** oracle/multilinear.rs lines 377-395 *)
  Definition present_oracles (os : oset L) : list (nat * oracle L) :=
    flat_map (fun p => match snd p with Some o => [(fst p, o)] | None => [] end) (combine (seq 0 (length os)) os).

  (** lines 24-91; [checks]: overflow checks, see Cs/ChannelModel.v; the exponents are not looked at (line 45) *)
  Definition validate (checks : bool) (ss : sset L) (sys : system L) (bs : list (boundary F)) (sizes : list nat) (w : index) : res unit :=
    try _ <- check_table_sizes (sys_specs L sys) sizes;
    try os <- instantiate L ss sizes;
    try _ <- all_ok (validate_set w sizes) (sys_tables L sys);
    try _ <- validate_nonzero os w (sys_non_zero L sys);
    try _ <- validate_witness F checks (polys w) (sys_flushes L sys) bs sizes (sys_channel_count L sys);
    all_ok (fun io => validate_virtual os w (fst io) (snd io)) (present_oracles os).
End Model.
