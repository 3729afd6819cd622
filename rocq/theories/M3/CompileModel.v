(** Model of the M3 table builder with its partitions (crates/m3/src/builder/table.rs, column.rs, expr.rs, structured.rs)
    and of the compilation of its tables to a constraint system (builder/constraint_system.rs lines 182-648), over the
    tower field of level [L].

    Simplifications: names and namespaces are left out; the type parameters [FSub] and [V] of a column are the fields
    [h_level] and [h_lv] of its handle, and arguments of the methods: the tower level and the logarithm of the number of
    values per row.  Elements of subfields are elements of the large field.  An expression is the circuit that is compiled
    from it ([ArithCircuit::from(expr)], C23) with its field converted.  The number of values per row is a power of two. *)
Require Import Coq.Arith.PeanoNat Coq.NArith.NArith Coq.Lists.List Coq.Bool.Bool.
From Verif Require Import Base.Fld Base.Lists Base.Sums Math.MleModel Math.ArithModel Field.TowerProofs
  Transparent.TransparentModel Transparent.ShiftModel Gkr.ExpModel Cs.ChannelModel Cs.FlushModel
  Evalcheck.OracleModel Evalcheck.SymbolicModel Cs.VerifyModel.
Import ListNotations.

Section Model.
  Variable L : nat.
  Notation F := (TF L).
  Local Open Scope fld_scope.

  (* ------------------------------------------------------------------ *)
  (** * Tables *)

  (** column.rs lines 86-92: the table and the index in it *)
  Definition cid : Type := (nat * nat)%type.
  Definition cid_eqb (a b : cid) : bool := ((fst a =? fst b) && (snd a =? snd b))%nat.

  (** column.rs lines 125-178 ColumnDef; the polynomial of a constant column is kept as its values and their level *)
  Inductive cdef : Type :=
  | CdCommitted (level : nat)
  | CdComputed (cols : list cid) (c : circuit F)
  | CdSelected (c : cid) (index index_bits : nat)
  | CdProjected (c : cid) (start_index query_size query_bits : nat)
  | CdZeroPadded (c : cid) (n_pad_vars start_index nonzero_index : nat)
  | CdShifted (c : cid) (offset log_block_size : nat) (sv : shift_variant)
  | CdPacked (c : cid) (log_degree : nat)
  | CdConstant (data : list F) (level : nat)
  | CdStructured (max_size_log : nat)
  | CdFixed (c : circuit F)
  | CdStaticExp (bits : list cid) (base : F) (level : nat)
  | CdDynamicExp (bits : list cid) (base : cid) (level : nat).

  (** column.rs lines 94-122 ColumnInfo and ColumnShape *)
  Record cinfo : Type := mkInfo { ci_id : cid; ci_def : cdef; ci_level : nat; ci_lv : nat; ci_nonzero : bool }.
  (** channel.rs lines 7-20 Flush; the multiplicity is a [u32] *)
  Record tflush : Type := mkTf { tf_cols : list cid; tf_channel : nat; tf_dir : direction; tf_mult : N; tf_sels : list cid }.
  (** table.rs lines 698-704 TablePartition; the number of values per row is [2^p_lv] *)
  Record part : Type := mkPart { p_lv : nat; p_flushes : list tflush; p_cols : list cid; p_zeros : list (circuit F) }.
  (** table.rs lines 684-691 Table; the entries of the [SparseIndex] (C62) of partitions *)
  Record tbl : Type := mkTbl { t_id : nat; t_cols : list cinfo; t_spec : size_spec; t_parts : list (option part) }.
  (** column.rs lines 26-38 Col *)
  Record hcol : Type := mkCol { h_id : cid; h_pidx : nat; h_level : nat; h_lv : nat }.
  (** expr.rs lines 19-26 Expr *)
  Record ex : Type := mkEx { ex_table : nat; ex_circuit : circuit F }.

  (** table.rs lines 767-775 *)
  Definition table_new (id : nat) : tbl := mkTbl id [] Arbitrary [].
  (** table.rs lines 707-716 *)
  Definition part_new (lv : nat) : part := mkPart lv [] [] [].

  (** utils sparse_index.rs [entry(k).or_insert_with(..)] and an update through the reference it returns *)
  Definition part_of (t : tbl) (lv : nat) : option part := match nth_error (t_parts t) lv with Some (Some p) => Some p | _ => None end.
  Definition set_entry (l : list (option part)) (k : nat) (p : part) : list (option part) :=
    let l := l ++ repeat None (S k - length l) in upd l k (Some p).
  (** table.rs lines 812-816 partition_mut *)
  Definition part_or_new (t : tbl) (lv : nat) : part := match part_of t lv with Some p => p | None => part_new lv end.
  Definition with_part (t : tbl) (lv : nat) (p : part) : tbl := mkTbl (t_id t) (t_cols t) (t_spec t) (set_entry (t_parts t) lv p).

  (** table.rs lines 781-810 new_column *)
  Definition new_column (t : tbl) (level lv : nat) (d : cdef) : hcol * tbl :=
    let id := (t_id t, length (t_cols t)) in
    let p := part_or_new t lv in
    let t' := with_part t lv (mkPart (p_lv p) (p_flushes p) (p_cols p ++ [id]) (p_zeros p)) in
    (mkCol id (length (p_cols p)) level lv, mkTbl (t_id t') (t_cols t' ++ [mkInfo id d level lv false]) (t_spec t') (t_parts t')).

  (** table.rs lines 60-73 *)
  Definition require_power_of_two_size (t : tbl) : res tbl :=
    match t_spec t with Arbitrary => Ok (mkTbl (t_id t) (t_cols t) PowerOfTwo (t_parts t)) | _ => Panic end.
  Definition require_fixed_size (t : tbl) (log_size : nat) : res tbl :=
    match t_spec t with Arbitrary => Ok (mkTbl (t_id t) (t_cols t) (Fixed log_size) (t_parts t)) | _ => Panic end.

  (** table.rs lines 114-128 *)
  Definition add_committed (t : tbl) (level lv : nat) : hcol * tbl := new_column t level lv (CdCommitted level).
  (** lines 141-165 *)
  Definition add_shifted (t : tbl) (c : hcol) (block offset : nat) (sv : shift_variant) : res (hcol * tbl) :=
    if ((h_lv c <? block) || (2 ^ block <? offset))%nat then Panic
    else Ok (new_column t (h_level c) (h_lv c) (CdShifted (h_id c) offset block sv)).
  (** lines 167-190 *)
  Definition add_packed (t : tbl) (c : hcol) (level lv : nat) : res (hcol * tbl) :=
    if negb ((h_level c <? level) && (lv <? h_lv c) && (level + lv =? h_level c + h_lv c))%nat then Panic
    else Ok (new_column t level lv (CdPacked (h_id c) (level - h_level c))).

  (** expr.rs lines 43-50 *)
  Definition col_expr (c : hcol) : ex := mkEx (fst (h_id c)) (cvar (h_pidx c)).
  (** expr.rs lines 84-91, 145-152, 195-205: the operators, which compare the tables *)
  Definition ex_op (op : circuit F -> circuit F -> circuit F) (a b : ex) : res ex :=
    if (ex_table a =? ex_table b)%nat then Ok (mkEx (ex_table a) (op (ex_circuit a) (ex_circuit b))) else Panic.
  (** operations with a constant, lines 94-102 *)
  Definition ex_const_op (op : circuit F -> circuit F -> circuit F) (a : ex) (v : F) : ex := mkEx (ex_table a) (op (ex_circuit a) (cconst v)).

  (** table.rs lines 561-571 and 718-734 *)
  Definition assert_zero (t : tbl) (lv : nat) (e : ex) : tbl :=
    let p := part_or_new t lv in
    with_part t lv (mkPart (p_lv p) (p_flushes p) (p_cols p) (p_zeros p ++ [ex_circuit e])).

  (** positions of the used variables *)
  Definition used_indices (u : list bool) : list nat := map fst (filter snd (combine (seq 0 (length u)) u)).
  (** table.rs lines 199-249.  The vector filled on lines 229-232. *)
  Fixpoint fill_from (k : nat) (l : list nat) (m : list nat) : list nat :=
    match l with [] => m | i :: l => fill_from (S k) l (upd m i k) end.
  Definition add_computed (t : tbl) (level lv : nat) (e : ex) : res (hcol * tbl) :=
    let c := ex_circuit e in
    try d <- of_opt (degree c);
    if (d <=? 1)%nat then
      try u <- of_opt (vars_usage c);
      let used := used_indices u in
      try p <- of_opt (part_of t lv);
      try cols <- of_opt (omap (nth_error (p_cols p)) used);
      match remap_vars c (fill_from 0 used (repeat 0%nat (n_vars c))) with
      | Ok c' => Ok (new_column t level lv (CdComputed cols c'))
      | _ => Panic
      end
    else
      let '(h, t') := add_committed t level lv in
      try e' <- ex_op csub e (col_expr h);
      Ok (h, assert_zero t' lv e').

  (** lines 257-276 *)
  Definition add_selected (t : tbl) (c : hcol) (index : nat) : res (hcol * tbl) :=
    if negb (index <? 2 ^ h_lv c)%nat then Panic
    else Ok (new_column t (h_level c) 0 (CdSelected (h_id c) index (h_lv c))).
  (** lines 284-315 *)
  Definition add_selected_block (t : tbl) (c : hcol) (new_lv index : nat) : res (hcol * tbl) :=
    if negb (new_lv <? h_lv c)%nat then Panic
    else Ok (new_column t (h_level c) new_lv (CdProjected (h_id c) new_lv (h_lv c - new_lv) index)).
  (** lines 320-345 *)
  Definition add_zero_pad_upcast (t : tbl) (c : hcol) (new_lv : nat) : res (hcol * tbl) :=
    if negb (h_lv c <? new_lv)%nat then Panic
    else Ok (new_column t (h_level c) new_lv (CdZeroPadded (h_id c) (new_lv - h_lv c) (h_lv c) (2 ^ (new_lv - h_lv c) - 1))).
  (** lines 351-377 *)
  Definition add_zero_pad (t : tbl) (c : hcol) (new_lv nz : nat) : res (hcol * tbl) :=
    if negb ((h_lv c <? new_lv) && (nz <? 2 ^ (new_lv - h_lv c)))%nat then Panic
    else Ok (new_column t (h_level c) new_lv (CdZeroPadded (h_id c) (new_lv - h_lv c) (h_lv c) nz)).
  (** lines 383-408; an array of length [V] *)
  Definition add_constant (t : tbl) (level lv : nat) (data : list F) : hcol * tbl := new_column t level lv (CdConstant data level).
  (** lines 422-455 *)
  Definition add_static_exp (t : tbl) (bits : list hcol) (base : F) (level : nat) : res (hcol * tbl) :=
    if (2 ^ level <? length bits)%nat then Panic
    else if negb (forallb (fun b => fst (h_id b) =? t_id t)%nat bits) then Panic
    else Ok (new_column t level 0 (CdStaticExp (map h_id bits) base level)).
  (** lines 468-503 *)
  Definition add_dynamic_exp (t : tbl) (bits : list hcol) (base : hcol) : res (hcol * tbl) :=
    if (2 ^ h_level base <? length bits)%nat then Panic
    else if negb (forallb (fun b => fst (h_id b) =? t_id t)%nat bits) then Panic
    else Ok (new_column t (h_level base) 0 (CdDynamicExp (map h_id bits) (h_id base) (h_level base))).
  (** lines 509-526 *)
  Definition add_structured (t : tbl) (level max_size_log : nat) : res (hcol * tbl) :=
    match t_spec t with PowerOfTwo => Ok (new_column t level 0 (CdStructured max_size_log)) | _ => Panic end.
  (** lines 529-542 *)
  Definition add_fixed (t : tbl) (level : nat) (c : circuit F) : res (hcol * tbl) :=
    match t_spec t with
    | Fixed log_size => if (log_size =? n_vars c)%nat then Ok (new_column t level 0 (CdFixed c)) else Panic
    | _ => Panic
    end.

  (** lines 562-571 *)
  Definition assert_nonzero (t : tbl) (c : hcol) : res tbl :=
    if negb (fst (h_id c) =? t_id t)%nat then Panic
    else match nth_error (t_cols t) (snd (h_id c)) with
         | None => Panic
         | Some i => Ok (mkTbl (t_id t) (upd (t_cols t) (snd (h_id c)) (mkInfo (ci_id i) (ci_def i) (ci_level i) (ci_lv i) true)) (t_spec t) (t_parts t))
         end.

  Definition add_flush (t : tbl) (lv : nat) (f : tflush) : tbl :=
    let p := part_or_new t lv in
    with_part t lv (mkPart (p_lv p) (p_flushes p ++ [f]) (p_cols p) (p_zeros p)).
  Definition own_columns (t : tbl) (cs : list hcol) : bool := forallb (fun c => fst (h_id c) =? t_id t)%nat cs.
  (** lines 589-623 and 736-763: [pull_with_opts] and [push_with_opts] *)
  Definition flush_with_opts (t : tbl) (dir : direction) (ch : nat) (cs : list hcol) (mult : N) (sels : list hcol) : res tbl :=
    if negb (own_columns t cs && own_columns t sels) then Panic
    else Ok (add_flush t 0 (mkTf (map h_id cs) ch dir mult (map h_id sels))).
  (** lines 640-664; all columns have [2^lv] values per row *)
  Definition read (t : tbl) (lv : nat) (ch : nat) (cs : list hcol) : res tbl :=
    if negb (own_columns t cs) then Panic else Ok (add_flush t lv (mkTf (map h_id cs) ch Pull 1 [])).

  (* ------------------------------------------------------------------ *)
  (** * Compilation: constraint_system.rs *)

  (** lines 300-382: [OracleLookup]; the oracle that [Index] returns for each column (for a constant column the repeating
      one).  A column that is registered twice panics, and so does the lookup of an absent column. *)
  Definition olookup : Type := list (cid * nat).
  Fixpoint lookup (m : olookup) (c : cid) : res nat :=
    match m with [] => Panic | (c', id) :: m => if cid_eqb c' c then Ok id else lookup m c end.
  Definition register (m : olookup) (c : cid) (id : nat) : res olookup :=
    match lookup m c with Panic => Ok (m ++ [(c, id)]) | _ => Panic end.

  (** the bits of an index, lines 438-446 *)
  Definition index_values (n index : nat) : list F := map (fun i => if Nat.testbit index i then 1 else 0) (seq 0 n).
  (** structured.rs lines 73-82: [basis(i)] is the element with bit [i] *)
  Definition incrementing_expr (m : nat) : res (circuit F) :=
    if (2 ^ L <? m)%nat then Err
    else Ok (csum (map (fun i => cmul (cvar i) (cconst (dec L (2 ^ N.of_nat i)))) (seq 0 m))).
  (** table.rs lines 393-401: the polynomial of a constant column, with packing width one *)
  Definition constant_column_poly (data : list F) : res (mvpoly F) := try m <- mlet_new 0 data; Ok (mlet_poly 0 0 m).
  (** core/src/polynomial/multivariate.rs lines 80-104 *)
  Definition circuit_mvpoly (c : circuit F) : mvpoly F :=
    mkMv (n_vars c) (fun q => match evaluate c q with Some v => Ok v | None => Err end).

  (** lines 424-575 add_oracle_for_column: the oracle set and the oracle of the column *)
  Definition column_oracle (ss : sset L) (m : olookup) (i : cinfo) (t : nat) : res (sset L * nat) :=
    let lv := ci_lv i in
    match ci_def i with
    | CdCommitted level => Ok (sym_committed L ss t lv level)
    | CdSelected c index bits => try j <- lookup m c; sym_projected L ss t lv j (index_values bits index) (Some 0%nat)
    | CdProjected c start size bits => try j <- lookup m c; sym_projected L ss t lv j (index_values size bits) (Some start)
    | CdZeroPadded c pad start nz => try j <- lookup m c; sym_zero_padded L ss t lv j pad nz start
    | CdShifted c offset block sv => try j <- lookup m c; sym_shifted L ss t lv j offset block sv
    | CdPacked c d => try j <- lookup m c; sym_packed L ss t lv j d
    | CdComputed cols e =>
      match linear_normal_form e with
      | Ok (offset, coeffs) =>
        try inner <- rmap (fun cc => try j <- lookup m (fst cc); Ok (j, snd cc)) (combine cols coeffs);
        sym_linear_combination L ss t lv offset inner
      | Err => try inner <- rmap (lookup m) cols; sym_composite L ss t lv inner e
      | Panic => Panic
      end
    | CdConstant data level =>
      try p <- constant_column_poly data;
      try s1 <- sym_transparent L ss t lv p level;
      sym_repeating L (fst s1) t lv (snd s1)
    | CdStructured max => try e <- incrementing_expr max; sym_structured L ss t lv e
    | CdFixed e => sym_transparent L ss t lv (circuit_mvpoly e) (circuit_level e)
    | CdStaticExp _ _ level => Ok (sym_committed L ss t lv level)
    | CdDynamicExp _ _ level => Ok (sym_committed L ss t lv level)
    end.
  (** lines 400-416 add_oracles_for_columns: oracles, lookup and non-zero oracles *)
  Definition add_column (t : nat) (st : sset L * olookup * list nat) (i : cinfo) : res (sset L * olookup * list nat) :=
    let '(ss, m, nz) := st in
    try x <- column_oracle ss m i t;
    try m' <- register m (ci_id i) (snd x);
    Ok (fst x, m', if ci_nonzero i then nz ++ [snd x] else nz).
  Fixpoint add_columns (t : nat) (st : sset L * olookup * list nat) (l : list cinfo) : res (sset L * olookup * list nat) :=
    match l with [] => Ok st | i :: l => try st <- add_column t st i; add_columns t st l end.

  (** [table[id]]: the column with the index of [id] *)
  Definition table_column (t : tbl) (id : cid) : res cinfo := of_opt (nth_error (t_cols t) (snd id)).
  (** lines 217-251 *)
  Definition exps_of (m : olookup) (i : cinfo) : res (list (exp_spec F)) :=
    match ci_def i with
    | CdStaticExp bits base _ => try b <- rmap (lookup m) bits; try r <- lookup m (ci_id i); Ok [mkExp b (BaseConst base) r]
    | CdDynamicExp bits base _ => try b <- rmap (lookup m) bits; try x <- lookup m base; try r <- lookup m (ci_id i); Ok [mkExp b (BaseOracle x) r]
    | _ => Ok []
    end.
  (** lines 253-281 *)
  Definition compile_flush (m : olookup) (t lv : nat) (f : tflush) : res (flush F) :=
    try os <- rmap (lookup m) (tf_cols f);
    try sels <- rmap (lookup m) (tf_sels f);
    Ok (mkFlush F t lv (map (Oracle F) os) (tf_channel f) (tf_dir f) sels (tf_mult f)).

  (** lines 590-602: which oracles of the partition appear *)
  Definition mark (u : list bool) (used : list bool) : res (list bool) :=
    fold_left (fun u iu => try u <- u; if snd iu : bool then (if (fst iu <? length u)%nat then Ok (upd u (fst iu) true) else Panic) else Ok u)
      (combine (seq 0 (length used)) used) (Ok u).
  Fixpoint mark_all (u : list bool) (zs : list (circuit F)) : res (list bool) :=
    match zs with [] => Ok u | c :: zs => try us <- of_opt (vars_usage c); try u <- mark u us; mark_all u zs end.
  (** lines 604-618: the dense list and the table of indices.  [usize::MAX] marks those that are not used; here it is the
      number of oracles [inv], which is not an index either. *)
  Definition dense_ids (u : list bool) (ids : list nat) : list nat := map snd (filter fst (combine u ids)).
  Fixpoint dense_indices (inv k : nat) (u : list bool) : list nat :=
    match u with [] => [] | true :: u => k :: dense_indices inv (S k) u | false :: u => inv :: dense_indices inv k u end.
  (** lines 577-648 *)
  Definition translate_constraint_set (t lv : nat) (zs : list (circuit F)) (ids : list nat) : res (table_constraints L) :=
    try u <- mark_all (repeat false (length ids)) zs;
    try cs <- rmap (fun c => match remap_vars c (dense_indices (length ids) 0 u) with Ok c' => Ok (c', None) | _ => Panic end) zs;
    Ok (mkTc L t lv (dense_ids u ids) cs).

  (** lines 203-291: what one partition adds: exponentiations, flushes, constraints *)
  Definition compile_part (m : olookup) (t : tbl) (p : part) : res (list (exp_spec F) * list (flush F) * list (table_constraints L)) :=
    try ids <- rmap (lookup m) (p_cols p);
    try es <- rmap (fun id => try i <- table_column t id; exps_of m i) (p_cols p);
    try fs <- rmap (compile_flush m (t_id t) (p_lv p)) (p_flushes p);
    try tc <- match p_zeros p with [] => Ok [] | _ => try c <- translate_constraint_set (t_id t) (p_lv p) (p_zeros p) ids; Ok [c] end;
    Ok (concat es, fs, tc).
  (** [partitions.values()] *)
  Definition parts_list (t : tbl) : list part := concat (map (fun o => match o with Some p => [p] | None => [] end) (t_parts t)).

  (** lines 182-307: the state of the loop over the tables *)
  Record compiled : Type := mkCompiled { c_oracles : sset L; c_lookup : olookup; c_system : system L }.
  Definition compile_table (k : compiled) (t : tbl) : res compiled :=
    let s := c_system k in
    try st <- add_columns (t_id t) (c_oracles k, c_lookup k, sys_non_zero L s) (t_cols t);
    let '(ss, m, nz) := st in
    try ps <- rmap (compile_part m t) (parts_list t);
    Ok (mkCompiled ss m (mkSystem L (sys_tables L s ++ concat (map snd ps)) (sys_flushes L s ++ concat (map (fun x => snd (fst x)) ps)) nz
      (sys_channel_count L s) (sys_exponents L s ++ concat (map (fun x => fst (fst x)) ps)) (sys_specs L s ++ [t_spec t]))).
  Fixpoint compile_tables (k : compiled) (ts : list tbl) : res compiled :=
    match ts with [] => Ok k | t :: ts => try k <- compile_table k t; compile_tables k ts end.
  Definition compile (ts : list tbl) (channels : nat) : res compiled := compile_tables (mkCompiled [] [] (mkSystem L [] [] [] channels [] [])) ts.
End Model.
