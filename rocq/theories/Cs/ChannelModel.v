(** Model of crates/core/src/constraint_system/channel.rs: validation of channel flushes against a witness. *)
Require Import Coq.ZArith.ZArith Coq.Arith.Arith Coq.Lists.List Coq.Bool.Bool.
From Verif Require Import Base.Fld Base.Lists Base.Sums.
Import ListNotations.
Local Open Scope nat_scope.

(** Two's complement [i64] (Rust semantics): a value taken modulo 2^64 into [-2^63, 2^63). *)
Definition wrap64 (z : Z) : Z := ((z + 2 ^ 63) mod 2 ^ 64 - 2 ^ 63)%Z.
Definition in_i64 (z : Z) : bool := ((- 2 ^ 63 <=? z) && (z <? 2 ^ 63))%Z.
(** The outcome of an [i64] operation with exact result [z]: wraps in a release build, panics out of range with overflow checks on. *)
Definition arith64 (checks : bool) (z : Z) : res Z := if checks && negb (in_i64 z) then Panic else Ok (wrap64 z).
(** [multiplicity as i64] for a [u64] (never checked). *)
Definition as_i64 (m : N) : Z := wrap64 (Z.of_N m).

Section Channel.
  Variable F : field.

  (** channel.rs:88-92 FlushDirection *)
  Inductive direction := Push | Pull.
  (** channel.rs:64-68 OracleOrConst; the tower level of a constant plays no role in validation. *)
  Inductive oracle_or_const := Oracle (id : nat) | Const (base : F).
  (** channel.rs:69-78 Flush; [multiplicity] is a u64. *)
  Record flush := mkFlush { fl_table : nat; fl_log_values_per_row : nat; fl_oracles : list oracle_or_const; fl_channel : nat; fl_dir : direction;
    fl_selectors : list nat; fl_multiplicity : N }.
  (** channel.rs:80-86 Boundary *)
  Record boundary := mkBoundary { bd_values : list F; bd_channel : nat; bd_dir : direction; bd_multiplicity : N }.

  (** A multilinear of the witness: number of variables and evaluations on the hypercube ([MultilinearPoly]). *)
  Record mpoly := mkPoly { mp_n_vars : nat; mp_eval : nat -> F }.
  (** crates/math/src/mle_adapters.rs evaluate_on_hypercube: an error beyond the hypercube. *)
  Definition evaluate_on_hypercube (p : mpoly) (i : nat) : res F := if i <? 2 ^ mp_n_vars p then Ok (mp_eval p i) else Err.
  (** crates/core/src/witness.rs MultilinearExtensionIndex::get_multilin_poly: an error if the oracle has no witness. *)
  Definition witness := nat -> option mpoly.
  Definition get_multilin_poly (w : witness) (id : nat) : res mpoly := match w id with Some p => Ok p | None => Err end.

  (** channel.rs:250-254 Channel; the hash map is an association list with field equality on keys. *)
  Record channel := mkChannel { ch_width : option nat; ch_mult : list (list F * Z) }.
  Definition channel_new : channel := mkChannel None [].

  Fixpoint key_eqb (x y : list F) : bool := match x, y with [], [] => true | a :: x, b :: y => feqb a b && key_eqb x y | _, _ => false end.
  (** [*multiplicities.entry(values).or_default() += d] *)
  Fixpoint add_entry (checks : bool) (k : list F) (d : Z) (m : list (list F * Z)) : res (list (list F * Z)) :=
    match m with
    | [] => try z <- arith64 checks (0 + d)%Z; Ok [(k, z)]
    | (k', z) :: m => if key_eqb k' k then try z' <- arith64 checks (z + d)%Z; Ok ((k', z') :: m) else try m' <- add_entry checks k d m; Ok ((k', z) :: m')
    end.

  (** channel.rs:269-291 Channel::flush *)
  Definition channel_flush (checks : bool) (c : channel) (dir : direction) (multiplicity : N) (values : list F) : res channel :=
    try w <- match ch_width c with None => Ok (length values) | Some w => if negb (w =? length values) then Err else Ok w end;
    try d <- arith64 checks (as_i64 multiplicity * match dir with Pull => -1 | Push => 1 end)%Z;
    try m <- add_entry checks values d (ch_mult c);
    Ok (mkChannel (Some w) m).
  (** channel.rs:293-295 *)
  Definition is_balanced (c : channel) : bool := forallb (fun e => (snd e =? 0)%Z) (ch_mult c).

  (** [channels[channel_id].flush(..)?] *)
  Definition flush_to (checks : bool) (channels : list channel) (id : nat) (dir : direction) (multiplicity : N) (values : list F) : res (list channel) :=
    try c <- of_opt (nth_error channels id);
    try c' <- channel_flush checks c dir multiplicity values;
    Ok (upd channels id c').

  Fixpoint fold_r {A S} (step : S -> A -> res S) (l : list A) (s : S) : res S := match l with [] => Ok s | a :: l => try s' <- step s a; fold_r step l s' end.
  Fixpoint collect_r {A B} (f : A -> res B) (l : list A) : res (list B) := match l with [] => Ok [] | a :: l => try b <- f a; try r <- collect_r f l; Ok (b :: r) end.

  (** channel.rs:108-123: a boundary value *)
  Definition boundary_step (checks : bool) (max_channel_id : nat) (channels : list channel) (b : boundary) : res (list channel) :=
    if max_channel_id <? bd_channel b then Err else flush_to checks channels (bd_channel b) (bd_dir b) (bd_multiplicity b) (bd_values b).

  Definition oracle_ids (l : list oracle_or_const) : list nat := flat_map (fun o => match o with Oracle id => [id] | Const _ => [] end) l.

  (** channel.rs:198-210: some selector is zero at [i]; an out-of-range evaluation is an [expect]. *)
  Fixpoint selector_off (polys : list mpoly) (i : nat) : res bool :=
    match polys with
    | [] => Ok false
    | p :: polys => match evaluate_on_hypercube p i with Ok x => if feqb x f0 then Ok true else selector_off polys i | _ => Panic end
    end.

  (** channel.rs:216-226: the tuple of row [i] *)
  Definition row_values (w : witness) (oracles : list oracle_or_const) (i : nat) : res (list F) :=
    collect_r (fun o => match o with
      | Const b => Ok b
      | Oracle id => match get_multilin_poly w id with Ok p => evaluate_on_hypercube p i | _ => Panic end end) oracles.

  (** channel.rs:197-229: one row *)
  Definition row_step (checks : bool) (w : witness) (f : flush) (selector_polys : list mpoly) (channels : list channel) (i : nat) : res (list channel) :=
    try off <- selector_off selector_polys i;
    if (off : bool) then Ok channels else
    try values <- row_values w (fl_oracles f) i;
    flush_to checks channels (fl_channel f) (fl_dir f) (fl_multiplicity f) values.

  (** channel.rs:125-230: one flush. Machine-word shifts and products are unbounded here. *)
  Definition flush_step (checks : bool) (w : witness) (table_sizes : list nat) (max_channel_id : nat) (channels : list channel) (f : flush) : res (list channel) :=
    if max_channel_id <? fl_channel f then Err else
    try table_size <- of_opt (nth_error table_sizes (fl_table f));
    if table_size =? 0 then Ok channels else
    try non_const <- collect_r (get_multilin_poly w) (oracle_ids (fl_oracles f));
    try selector_polys <- collect_r (get_multilin_poly w) (fl_selectors f);
    let n_vars := match non_const with [] => 0 | p :: _ => mp_n_vars p end in
    if negb (forallb (fun p => mp_n_vars p =? n_vars) non_const) then Err else
    if negb (forallb (fun p => mp_n_vars p =? n_vars) selector_polys) then match non_const with [] => Panic | _ => Err end else
    let rows := table_size * 2 ^ fl_log_values_per_row f in
    if negb (rows <=? 2 ^ n_vars) then Panic else
    fold_r (row_step checks w f selector_polys) (seq 0 rows) channels.

  (** channel.rs:94-248 *)
  Definition validate_witness (checks : bool) (w : witness) (flushes : list flush) (boundaries : list boundary) (table_sizes : list nat) (channel_count : nat) : res unit :=
    let max_channel_id := channel_count - 1 in
    try channels <- fold_r (boundary_step checks max_channel_id) boundaries (repeat channel_new channel_count);
    try channels <- fold_r (flush_step checks w table_sizes max_channel_id) flushes channels;
    if forallb is_balanced channels then Ok tt else Err.
End Channel.
