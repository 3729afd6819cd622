(** Specification for C78: what a table of the M3 builder says about its cells, independent of compilation. *)
Require Import Coq.NArith.NArith Coq.Arith.Arith Coq.Lists.List Coq.Bool.Bool.
From Verif Require Import Base.Fld Base.Lists Base.Sums Math.MleSpec Math.ArithModel Math.ArithProps Field.TowerProofs
  Transparent.TowerBasisProps Transparent.ShiftModel Sumcheck.ZerocheckModel Gkr.ExpModel Cs.ChannelModel Cs.FlushModel Cs.VerifyModel
  Evalcheck.OracleModel Evalcheck.EvalSpec M3.CompileModel.
Import ListNotations.
Local Close Scope N_scope.
Local Open Scope nat_scope.

Section Spec.
  Variable L : nat.
  Notation F := (TF L).

  (** The columns that a definition refers to. *)
  Definition refs (d : cdef L) : list cid :=
    match d with
    | CdComputed _ cols _ => cols
    | CdSelected _ c _ _ | CdProjected _ c _ _ _ | CdZeroPadded _ c _ _ _ | CdShifted _ c _ _ _ | CdPacked _ c _ => [c]
    | CdStaticExp _ bits _ _ => bits
    | CdDynamicExp _ bits base _ => base :: bits
    | _ => []
    end.

  (** * Well-formed tables *)
  (** [k] is a column of the table among its first [n] columns, with [2^lv] values per row. *)
  Definition column_of (t : tbl L) (n lv : nat) (k : cid) : Prop :=
    fst k = t_id L t /\ snd k < n /\ exists i, nth_error (t_cols L t) (snd k) = Some i /\ ci_lv L i = lv.

  Definition column_ok (t : tbl L) (n : nat) (i : cinfo L) : Prop :=
    let lv := ci_lv L i in
    match ci_def L i with
    | CdCommitted _ level => level = ci_level L i
    | CdComputed _ cols c => (forall k, In k cols -> column_of t n lv k) /\ cwf F c /\ n_vars c <= length cols /\ exists d, degree c = Some d /\ d <= 1
    | CdSelected _ k index bits => lv = 0 /\ index < 2 ^ bits /\ column_of t n bits k
    | CdProjected _ k start size _ => start = lv /\ column_of t n (lv + size) k
    | CdZeroPadded _ k pad start nz => start + pad = lv /\ nz < 2 ^ pad /\ column_of t n start k
    | CdShifted _ k o b _ => b <= lv /\ o <= 2 ^ b /\ column_of t n lv k
    | CdPacked _ k d => column_of t n (lv + d) k
    | CdConstant _ data level => length data = 2 ^ lv /\ level = ci_level L i
    | CdStructured _ _ => lv = 0 /\ t_spec L t = PowerOfTwo
    | CdFixed _ c => lv = 0 /\ t_spec L t = Fixed (n_vars c)
    | CdStaticExp _ bits _ level => lv = 0 /\ level = ci_level L i /\ length bits <= 2 ^ level /\ forall k, In k bits -> column_of t n 0 k
    | CdDynamicExp _ bits base level => lv = 0 /\ level = ci_level L i /\ length bits <= 2 ^ level /\ column_of t n 0 base /\ forall k, In k bits -> column_of t n 0 k
    end.

  (** A constraint on the cells with [2^lv] values per row: a circuit over the columns of the partition. *)
  Definition over_partition (p : part L) (c : circuit F) : Prop := cwf F c /\ n_vars c <= length (p_cols L p).
  Definition part_ok (t : tbl L) (lv : nat) (p : part L) : Prop :=
    p_lv L p = lv /\
    (forall k, In k (p_cols L p) -> column_of t (length (t_cols L t)) lv k) /\
    (forall c, In c (p_zeros L p) -> over_partition p c) /\
    (forall f, In f (p_flushes L p) -> forall k, In k (tf_cols f) \/ In k (tf_sels f) -> column_of t (length (t_cols L t)) lv k).
  Definition table_ok (t : tbl L) : Prop :=
    (forall n i, nth_error (t_cols L t) n = Some i -> ci_id L i = (t_id L t, n) /\ column_ok t n i /\
       exists p, part_of L t (ci_lv L i) = Some p /\ In (ci_id L i) (p_cols L p)) /\
    (forall lv p, part_of L t lv = Some p -> part_ok t lv p).
  Definition tables_ok (ts : list (tbl L)) : Prop := forall n t, nth_error ts n = Some t -> t_id L t = n /\ table_ok t.

  (** * Handles: what the methods of the builder return *)
  Definition handle (t : tbl L) (h : hcol) : Prop :=
    fst (h_id h) = t_id L t /\ (exists i, nth_error (t_cols L t) (snd (h_id h)) = Some i /\ ci_lv L i = h_lv h /\ ci_level L i = h_level h) /\
    exists p, part_of L t (h_lv h) = Some p /\ nth_error (p_cols L p) (h_pidx h) = Some (h_id h).
  (** an expression over columns of the table with [2^lv] values per row *)
  Definition expression (t : tbl L) (lv : nat) (e : ex L) : Prop :=
    ex_table L e = t_id L t /\ exists p, part_of L t lv = Some p /\ over_partition p (ex_circuit L e).
  (** handles and expressions for [t] are valid for [t'] *)
  Definition extends (t t' : tbl L) : Prop :=
    (forall h, handle t h -> handle t' h) /\ (forall lv e, expression t lv e -> expression t' lv e).

  (** * The meaning of the columns *)
  (** [w c r j]: the value of column [c] in row [r] at position [j] of its cell *)
  Definition cells : Type := cid -> nat -> nat -> F.

  Definition info_of (ts : list (tbl L)) (c : cid) : option (cinfo L) :=
    match nth_error ts (fst c) with Some t => nth_error (t_cols L t) (snd c) | None => None end.
  Definition level_of (ts : list (tbl L)) (c : cid) : nat := match info_of ts c with Some i => ci_level L i | None => 0 end.

  (** The value of a derived column at row [r] and position [j], from the other columns; [n] is the logarithm of the number
      of rows. *)
  Definition cell (ts : list (tbl L)) (n : nat) (w : cells) (i : cinfo L) (r j : nat) : Prop :=
    let v := w (ci_id L i) r j in
    match ci_def L i with
    | CdCommitted _ _ | CdStaticExp _ _ _ _ | CdDynamicExp _ _ _ _ => True
    | CdComputed _ cols c => evaluate c (map (fun k => w k r j) cols) = Some v
    | CdSelected _ k index _ => v = w k r index
    | CdProjected _ k start size bits => v = w k r (j + 2 ^ start * (bits mod 2 ^ size))
    | CdZeroPadded _ k pad start nz => v = if j / 2 ^ start =? nz then w k r (j mod 2 ^ start) else f0
    | CdShifted _ k o b sv => v = shifted_value sv b o (w k r) j
    | CdPacked _ k d => v = sumn (2 ^ d) (fun e => fmul (basis_product L (level_of ts k) e) (w k r (j * 2 ^ d + e)))
    | CdConstant _ data _ => v = nth j data f0
    | CdStructured _ _ => v = dec L (N.of_nat r)
    | CdFixed _ c => evaluate c (vertex n r) = Some v
    end.

  (** Column [c] has an oracle of its own level: it is not computed from an expression. *)
  Inductive exact (ts : list (tbl L)) : cid -> Prop :=
  | exact_here c i : info_of ts c = Some i ->
      match ci_def L i with CdCommitted _ _ | CdConstant _ _ _ | CdStaticExp _ _ _ _ | CdDynamicExp _ _ _ _ => True | _ => False end -> exact ts c
  | exact_from c i k : info_of ts c = Some i ->
      match ci_def L i with
      | CdSelected _ k' _ _ | CdProjected _ k' _ _ _ | CdZeroPadded _ k' _ _ _ | CdShifted _ k' _ _ _ => k' = k /\ level_of ts k = ci_level L i
      | CdPacked _ k' d => k' = k /\ level_of ts k + d = ci_level L i
      | _ => False
      end -> exact ts k -> exact ts c.

  (** What compilation relies on and the builder does not ensure. *)
  Definition compilable (ts : list (tbl L)) (i : cinfo L) : Prop :=
    match ci_def L i with
    | CdShifted _ _ o b _ => 0 < o < 2 ^ b
    | CdConstant _ _ level => level <= L
    | CdStructured _ max => max <= 2 ^ L
    | CdFixed _ c => exists v, forall q, length q = n_vars c -> evaluate c q = Some (mle v q)
    | CdPacked _ k _ => exact ts k
    | _ => True
    end.
  Definition all_compilable (ts : list (tbl L)) : Prop := forall c i, info_of ts c = Some i -> compilable ts i.

  (** The sizes of the tables are those that the constraint system accepts, and structured columns are large enough. *)
  Definition sizes_fit (ts : list (tbl L)) (sizes : list nat) : Prop :=
    check_table_sizes (map (t_spec L) ts) sizes = Ok tt /\
    forall c i max, info_of ts c = Some i -> ci_def L i = CdStructured L max -> log2_ceil (nth (fst c) sizes 0) <= max.
End Spec.

(** * The constraint system of the tables, when the oracle of the column [c] is [lk c] *)
Section Compiled.
  Variable L : nat.
  Notation F := (TF L).
  Notation tbl := (tbl L).
  Variable lk : cid -> nat.

  Definition all_cols (ts : list tbl) : list (cinfo L) := concat (map (t_cols L) ts).
  Definition parts_of (ts : list tbl) : list (tbl * part L) := concat (map (fun t => map (pair t) (parts_list L t)) ts).

  (** one flush for each flush of each partition *)
  Definition flush_at (t lv : nat) (f : tflush) : flush F :=
    mkFlush F t lv (map (fun c => Oracle F (lk c)) (tf_cols f)) (tf_channel f) (tf_dir f) (map lk (tf_sels f)) (tf_mult f).
  Definition flushes_at (ts : list tbl) : list (flush F) :=
    concat (map (fun tp => map (flush_at (t_id L (fst tp)) (p_lv L (snd tp))) (p_flushes L (snd tp))) (parts_of ts)).

  (** one exponentiation for each exponentiation column *)
  Definition exps_at (i : cinfo L) : list (exp_spec F) :=
    match ci_def L i with
    | CdStaticExp _ bits base _ => [mkExp (map lk bits) (BaseConst base) (lk (ci_id L i))]
    | CdDynamicExp _ bits base _ => [mkExp (map lk bits) (BaseOracle (lk base)) (lk (ci_id L i))]
    | _ => []
    end.
  Definition exps_in (t : tbl) (p : part L) : list (exp_spec F) :=
    concat (map (fun c => match nth_error (t_cols L t) (snd c) with Some i => exps_at i | None => [] end) (p_cols L p)).
  Definition exponents_at (ts : list tbl) : list (exp_spec F) := concat (map (fun tp => exps_in (fst tp) (snd tp)) (parts_of ts)).

  (** the constraint [c] says for the oracles [tids] what [z] says for the oracles [ids] *)
  Definition same_constraint (ids tids : list nat) (z : circuit F) (c : circuit F * option F) : Prop :=
    snd c = None /\ cwf F (fst c) /\ n_vars (fst c) <= length tids /\ degree (fst c) = degree z /\ (exists pos, remap_vars z pos = Ok (fst c)) /\
    forall f : nat -> F, evaluate (fst c) (map f tids) = evaluate z (map f ids).
  (** one set of constraints for each partition with constraints *)
  Definition tables_at (t : tbl) (p : part L) (tcs : list (table_constraints L)) : Prop :=
    match p_zeros L p with
    | [] => tcs = []
    | zs => exists tc, tcs = [tc] /\ tc_table L tc = t_id L t /\ tc_log_values_per_row L tc = p_lv L p /\
        (forall id, In id (tc_ids L tc) -> In id (map lk (p_cols L p))) /\ Forall2 (same_constraint (map lk (p_cols L p)) (tc_ids L tc)) zs (tc_constraints L tc)
    end.
  Definition constraints_at (ts : list tbl) (tcs : list (table_constraints L)) : Prop :=
    exists tss, tcs = concat tss /\ Forall2 (fun tp x => tables_at (fst tp) (snd tp) x) (parts_of ts) tss.

  (** The cells of the tables, in the values [V] of the oracles: the [2^lv] values of a row are consecutive. *)
  Definition rows_of (sizes : list nat) (c : cid) : nat := nth (fst c) sizes 0.
  Definition lv_of (ts : list tbl) (c : cid) : nat := match info_of L ts c with Some i => ci_lv L i | None => 0 end.
  Definition view (ts : list tbl) (V : nat -> nat -> F) : cells L := fun c r j => V (lk c) (r * 2 ^ lv_of ts c + j).

  (** Every cell of every table with rows is what the definition of its column says; tables are padded to a power of two. *)
  Definition cells_hold (ts : list tbl) (sizes : list nat) (w : cells L) : Prop :=
    forall c i r j, info_of L ts c = Some i -> rows_of sizes c <> 0 -> r < 2 ^ log2_ceil (rows_of sizes c) -> j < 2 ^ ci_lv L i ->
      cell L ts (log2_ceil (rows_of sizes c)) w i r j.
End Compiled.
