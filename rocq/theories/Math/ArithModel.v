(** Model of crates/math/src/arith_expr.rs: arithmetic expressions and circuits.

    Simplifications: indices and degrees ([usize]) are unbounded; exponents ([u64]) are binary
    numbers.  A recursion over step indices takes a fuel argument, larger than the number of steps:
    running out of fuel stands for the unbounded recursion of the code on a step that refers to
    itself or to a later step (no constructor of the API produces one).  [None] is a panic. *)
Require Import Coq.NArith.NArith Coq.Arith.Arith Coq.Lists.List Coq.Bool.Bool.
From Verif Require Import Base.Fld Base.Lists Base.Sums.
Import ListNotations.
Local Close Scope N_scope.
Local Open Scope nat_scope.

Section Model.
  Variable F : field.
  Local Open Scope fld_scope.

  (** crates/field/src/packed.rs lines 191-200: [PackedField::pow] (and field.rs 92-105 for a
      one-limb exponent); [x.square()] is [x * x] (C03). *)
  Definition ppow (x : F) (e : N) : F :=
    fold_left (fun res i => let res := res * res in if N.testbit e (N.of_nat i) then res * x else res)
              (rev (seq 0 64)) 1.

  (** lines 23-30.  An [Arc] is represented by its address and the expression it points to. *)
  Inductive expr : Type :=
  | EConst (v : F)
  | EVar (i : nat)
  | EAdd (pl : nat) (l : expr) (pr : nat) (r : expr)
  | EMul (pl : nat) (l : expr) (pr : nat) (r : expr)
  | EPow (pb : nat) (b : expr) (e : N).

  (** lines 199-206 *)
  Inductive step : Type :=
  | SAdd (l r : nat)
  | SMul (l r : nat)
  | SPow (b : nat) (e : N)
  | SConst (v : F)
  | SVar (i : nat).

  Definition circuit := list step.

  (** lines 229-254 *)
  Definition cvar (i : nat) : circuit := [SVar i].
  Definition cconst (v : F) : circuit := [SConst v].
  Definition cpow (c : circuit) (e : N) : circuit := c ++ [SPow (length c - 1) e].

  (** lines 926-939: [add_offset] *)
  Definition offset_step (o : nat) (s : step) : step :=
    match s with
    | SAdd l r => SAdd (l + o) (r + o)
    | SMul l r => SMul (l + o) (r + o)
    | SPow b e => SPow (b + o) e
    | s => s
    end.
  (** lines 869-877, 904-912: [+=], [*=]; lines 888-893: [-=] is [+=] *)
  Definition cadd (a b : circuit) : circuit :=
    let l := a ++ map (offset_step (length a)) b in l ++ [SAdd (length a - 1) (length l - 1)].
  Definition cmul (a b : circuit) : circuit :=
    let l := a ++ map (offset_step (length a)) b in l ++ [SMul (length a - 1) (length l - 1)].
  Definition csub (a b : circuit) : circuit := cadd a b.
  (** lines 914-924 *)
  Definition csum (l : list circuit) : circuit := fold_left cadd l (cconst 0).
  Definition cproduct (l : list circuit) : circuit := fold_left cmul l (cconst 1).

  (** lines 370-380: one iteration *)
  Definition step_val (query vs : list F) (s : step) : option F :=
    match s with
    | SAdd l r => do a <- nth_error vs l; do b <- nth_error vs r; Some (a + b)
    | SMul l r => do a <- nth_error vs l; do b <- nth_error vs r; Some (a * b)
    | SPow b e => do a <- nth_error vs b; Some (ppow a e)
    | SConst v => Some v
    | SVar i => nth_error query i
    end.
  Definition evals (query : list F) (c : circuit) : option (list F) :=
    ofold (fun vs s => do v <- step_val query vs s; Some (vs ++ [v])) c [].
  (** lines 367-383 *)
  Definition evaluate (c : circuit) (query : list F) : option F :=
    do vs <- evals query c; Some (last vs 0).

  (** lines 262-278 *)
  Fixpoint step_degree (fuel : nat) (c : circuit) (i : nat) : option nat :=
    match fuel with
    | O => None
    | S fuel' =>
      do s <- nth_error c i;
      match s with
      | SConst _ => Some 0%nat
      | SVar _ => Some 1%nat
      | SAdd l r => do a <- step_degree fuel' c l; do b <- step_degree fuel' c r; Some (Nat.max a b)
      | SMul l r => do a <- step_degree fuel' c l; do b <- step_degree fuel' c r; Some (a + b)%nat
      | SPow b e => do a <- step_degree fuel' c b; Some (a * N.to_nat e)%nat
      end
    end.
  Definition degree (c : circuit) : option nat := step_degree (S (length c)) c (length c - 1).

  (** lines 281-293 *)
  Definition var_bound (s : step) : nat := match s with SVar i => S i | _ => O end.
  Definition n_vars (c : circuit) : nat := fold_right Nat.max 0%nat (map var_bound c).

  (** lines 314-332: (adds, muls, squares); [ilog2] of zero panics *)
  Definition popcount (e : N) : nat := length (filter (fun i => N.testbit e (N.of_nat i)) (seq 0 64)).
  Definition eval_cost (c : circuit) : option (nat * nat * nat) :=
    ofold (fun acc s => match acc with (a, m, q) =>
      match s with
      | SConst _ | SVar _ => Some (a, m, q)
      | SAdd _ _ => Some (S a, m, q)
      | SMul _ _ => Some (a, S m, q)
      | SPow _ e => if N.eqb e 0 then None
                    else Some (a, m + (popcount e - 1), q + N.to_nat (N.log2 e))%nat
      end end) c (0, 0, 0)%nat.

  (** lines 336-365 *)
  Fixpoint leading (fuel : nat) (c : circuit) (i : nat) : option (nat * circuit) :=
    match fuel with
    | O => None
    | S fuel' =>
      do s <- nth_error c i;
      match s with
      | SConst v => Some (0%nat, cconst v)
      | SVar x => Some (1%nat, cvar x)
      | SAdd l r =>
        do a <- leading fuel' c l; do b <- leading fuel' c r;
        Some (match Nat.compare (fst a) (fst b) with
              | Lt => b
              | Eq => (fst a, cadd (snd a) (snd b))
              | Gt => a
              end)
      | SMul l r =>
        do a <- leading fuel' c l; do b <- leading fuel' c r;
        Some ((fst a + fst b)%nat, cmul (snd a) (snd b))
      | SPow b e =>
        do a <- leading fuel' c b; Some ((fst a * N.to_nat e)%nat, cpow (snd a) e)
      end
    end.
  Definition leading_term (c : circuit) : option circuit :=
    do r <- leading (S (length c)) c (length c - 1); Some (snd r).

  (** lines 433-452 *)
  Definition remap_step (indices : list nat) (s : step) : option step :=
    match s with
    | SVar i => do j <- nth_error indices i; Some (SVar j)
    | s => Some s
    end.
  Definition remap_vars (c : circuit) (indices : list nat) : res circuit :=
    match omap (remap_step indices) c with Some l => Ok l | None => Err end.

  (** lines 455-465 *)
  Definition const_subst (c : circuit) (var : nat) (value : F) : circuit :=
    map (fun s => match s with
                  | SVar i => if (i =? var)%nat then SConst value else s
                  | s => s end) c.

  (** lines 468-476 *)
  Definition get_constant (c : circuit) : option (option F) :=
    match rev c with
    | [] => None
    | SConst v :: _ => Some (Some v)
    | _ => Some None
    end.

  (** lines 528-538 *)
  Definition vars_usage (c : circuit) : option (list bool) :=
    ofold (fun u s => match s with
                      | SVar i => if (i <? length u)%nat then Some (upd u i true) else None
                      | _ => Some u end) c (repeat false (n_vars c)).

  (* ------------------------------------------------------------------ *)
  (** * Linear normal form *)
  (** lines 941-967; the hash map is an association list with distinct keys *)
  Record sparse : Type := mkSparse { sp_const : F; sp_coeffs : list (nat * F); sp_len : nat }.
  Definition sp_of (v : F) : sparse := mkSparse v [] 0.

  (** [entry(index).and_modify(+= coeff).or_insert(coeff)] *)
  Fixpoint map_add (m : list (nat * F)) (k : nat) (c : F) : list (nat * F) :=
    match m with
    | [] => [(k, c)]
    | (k', c') :: m' => if (k' =? k)%nat then (k', c' + c) :: m' else (k', c') :: map_add m' k c
    end.
  (** lines 969-993 *)
  Definition sp_add (x y : sparse) : sparse :=
    let '(r, o) := if (length (sp_coeffs x) <? length (sp_coeffs y))%nat then (y, x) else (x, y) in
    mkSparse (sp_const r + sp_const o)
             (fold_left (fun m kc => map_add m (fst kc) (snd kc)) (sp_coeffs o) (sp_coeffs r))
             (if (sp_len r <? sp_len o)%nat then sp_len o else sp_len r).
  Definition is_nil {A} (l : list A) : bool := match l with [] => true | _ => false end.
  (** lines 995-1012 *)
  Definition sp_mul (x y : sparse) : res sparse :=
    if negb (is_nil (sp_coeffs x)) && negb (is_nil (sp_coeffs y)) then Err
    else
      let '(r, o) := if is_nil (sp_coeffs x) then (y, x) else (x, y) in
      Ok (mkSparse (sp_const r * sp_const o)
                   (map (fun kc => (fst kc, snd kc * sp_const o)) (sp_coeffs r)) (sp_len r)).
  (** lines 487-522 *)
  Fixpoint sparse_form (fuel : nat) (c : circuit) (i : nat) : res sparse :=
    match fuel with
    | O => Panic
    | S fuel' =>
      try s <- of_opt (nth_error c i);
      match s with
      | SConst v => Ok (sp_of v)
      | SVar x => Ok (mkSparse 0 [(x, 1)] (S x))
      | SAdd l r => try a <- sparse_form fuel' c l; try b <- sparse_form fuel' c r; Ok (sp_add a b)
      | SMul l r => try a <- sparse_form fuel' c l; try b <- sparse_form fuel' c r; sp_mul a b
      | SPow b e =>
        if N.eqb e 0 then Ok (sp_of 1)
        else if N.eqb e 1 then sparse_form fuel' c b
        else try a <- sparse_form fuel' c b;
             if negb (sp_len a =? 0)%nat then Err else Ok (sp_of (ppow (sp_const a) e))
      end
    end.
  (** lines 483-485, 1014-1025 *)
  Definition linear_normal_form (c : circuit) : res (F * list F) :=
    try s <- sparse_form (S (length c)) c (length c - 1);
    try v <- of_opt (ofold (fun l kc => if (fst kc <? length l)%nat then Some (upd l (fst kc) (snd kc)) else None)
                           (sp_coeffs s) (repeat 0 (sp_len s)));
    Ok (sp_const s, v).

  (* ------------------------------------------------------------------ *)
  (** * Optimisation *)
  Definition is_char2 (b : bool) : Prop := b = true -> 1 + 1 = (0 : F).

  Definition step_eqb (a b : step) : bool :=
    match a, b with
    | SAdd l r, SAdd l' r' => (l =? l')%nat && (r =? r')%nat
    | SMul l r, SMul l' r' => (l =? l')%nat && (r =? r')%nat
    | SPow x e, SPow x' e' => (x =? x')%nat && N.eqb e e'
    | SConst v, SConst v' => feqb v v'
    | SVar i, SVar i' => (i =? i')%nat
    | _, _ => false
    end.

  (** [u64] multiplication: [wrapping = false] is a build with overflow checks (a panic),
      [wrapping = true] one without. *)
  Definition mul64 (wrapping : bool) (a b : N) : option N :=
    if N.ltb (a * b) (2 ^ 64) then Some (a * b)%N
    else if wrapping then Some ((a * b) mod 2 ^ 64)%N else None.

  (** lines 541-595: the new value of a step, given the already rewritten previous steps *)
  Definition opt_step (wrapping char2 : bool) (prev : list step) (s : step) : option step :=
    match s with
    | SConst _ | SVar _ => Some s
    | SAdd l r =>
      do a <- nth_error prev l; do b <- nth_error prev r;
      match a, b with
      | SConst x, SConst y => Some (SConst (x + y))
      | _, _ =>
        match a with
        | SConst x => if feqb x 0 then Some b else
            if step_eqb a b && char2 then Some (SConst 0) else Some s
        | _ =>
          match b with
          | SConst y => if feqb y 0 then Some a else
              if step_eqb a b && char2 then Some (SConst 0) else Some s
          | _ => if step_eqb a b && char2 then Some (SConst 0) else Some s
          end
        end
      end
    | SMul l r =>
      do a <- nth_error prev l; do b <- nth_error prev r;
      match a, b with
      | SConst x, SConst y => Some (SConst (x * y))
      | SConst x, _ => if feqb x 0 then Some (SConst 0) else if feqb x 1 then Some b else Some s
      | _, SConst y => if feqb y 0 then Some (SConst 0) else if feqb y 1 then Some a else Some s
      | _, _ => Some s
      end
    | SPow b e =>
      do a <- nth_error prev b;
      match a with
      | SConst v => Some (SConst (ppow v e))
      | SPow b' e' => do e'' <- mul64 wrapping e e'; Some (SPow b' e'')
      | _ => Some s
      end
    end.
  Definition optimize_constants (wrapping char2 : bool) (c : circuit) : option circuit :=
    ofold (fun prev s => do s' <- opt_step wrapping char2 prev s; Some (prev ++ [s'])) c [].

  (** lines 1027-1070: equality of the sub-circuits at two steps *)
  Fixpoint node_eq (fuel : nat) (c1 : circuit) (i : nat) (c2 : circuit) (j : nat) : option bool :=
    match fuel with
    | O => None
    | S fuel' =>
      do a <- nth_error c1 i; do b <- nth_error c2 j;
      match a, b with
      | SConst x, SConst y => Some (feqb x y)
      | SVar x, SVar y => Some (x =? y)%nat
      | SAdd l r, SAdd l' r' | SMul l r, SMul l' r' =>
        do el <- node_eq fuel' c1 l c2 l';
        if el then node_eq fuel' c1 r c2 r' else Some false
      | SPow x e, SPow x' e' =>
        do eb <- node_eq fuel' c1 x c2 x';
        Some (eb && N.eqb e e')
      | _, _ => Some false
      end
    end.
  (** lines 848-858 *)
  Definition circuit_eq (c1 c2 : circuit) : option bool :=
    node_eq (S (length c1)) c1 (length c1 - 1) c2 (length c2 - 1).

  (** the entry of the hash map equal to step [i]; equal nodes have equal hashes *)
  Fixpoint find_node (c : circuit) (keys : list nat) (i : nat) : option (option nat) :=
    match keys with
    | [] => Some None
    | k :: ks => do b <- node_eq (S (length c)) c k c i;
                 if b then Some (Some k) else find_node c ks i
    end.
  (** lines 604-633 *)
  Definition redirect (m : list nat) (s : step) : option step :=
    match s with
    | SAdd l r => do l' <- nth_error m l; do r' <- nth_error m r; Some (SAdd l' r')
    | SMul l r => do l' <- nth_error m l; do r' <- nth_error m r; Some (SMul l' r')
    | SPow b e => do b' <- nth_error m b; Some (SPow b' e)
    | s => Some s
    end.
  Definition dedup_indices (c : circuit) : option (list nat * list nat) :=
    ofold (fun st i =>
      do k <- find_node c (fst st) i;
      Some (match k with
            | Some k => (fst st, snd st ++ [k])
            | None => (fst st ++ [i], snd st ++ [i])
            end)) (seq 0 (length c)) ([], []).
  Definition deduplicate_steps (c : circuit) : option circuit :=
    do st <- dedup_indices c; omap (redirect (snd st)) c.

  (** lines 637-650 *)
  Fixpoint mark_used (fuel : nat) (c : circuit) (i : nat) (used : list bool) : option (list bool) :=
    match fuel with
    | O => None
    | S fuel' =>
      do u <- nth_error used i;
      if u : bool then Some used
      else
        let used := upd used i true in
        do s <- nth_error c i;
        match s with
        | SAdd l r | SMul l r => do used <- mark_used fuel' c l used; mark_used fuel' c r used
        | SPow b _ => mark_used fuel' c b used
        | _ => Some used
        end
    end.
  (** lines 652-678: the state is (steps, steps_map, target_index) *)
  Definition compress_step (used : list bool) (st : circuit * list nat * nat) (src : nat)
    : option (circuit * list nat * nat) :=
    match st with
    | (c, m, t) =>
      do u <- nth_error used src;
      if u : bool then
        if negb (t =? src)%nat then
          do s <- nth_error c src;
          do s' <- redirect m s;
          let c := upd c src s' in
          Some (upd c t s', upd m src t, S t)
        else Some (c, m, S t)
      else Some st
    end.
  Definition compress_unused_steps (c : circuit) : option circuit :=
    match c with
    | [] => None  (* [self.steps.len() - 1] underflows *)
    | _ =>
      do used <- mark_used (S (length c)) c (length c - 1) (repeat false (length c));
      do st <- ofold (compress_step used) (seq 0 (length c)) (c, seq 0 (length c), 0%nat);
      Some (firstn (snd st) (fst (fst st)))
    end.

  (** lines 684-697 *)
  Definition optimize (wrapping char2 : bool) (c : circuit) : option circuit :=
    do c1 <- optimize_constants wrapping char2 c;
    do c2 <- deduplicate_steps c1;
    compress_unused_steps c2.

  (* ------------------------------------------------------------------ *)
  (** * Conversions *)
  Fixpoint assoc (m : list (nat * nat)) (p : nat) : option nat :=
    match m with
    | [] => None
    | (q, i) :: m' => if (q =? p)%nat then Some i else assoc m' p
    end.
  (** lines 702-733 *)
  Fixpoint visit (p : nat) (e : expr) (m : list (nat * nat)) (c : circuit)
    : nat * list (nat * nat) * circuit :=
    match assoc m p with
    | Some i => (i, m, c)
    | None =>
      let '(s, m, c) :=
        match e with
        | EConst v => (SConst v, m, c)
        | EVar i => (SVar i, m, c)
        | EAdd pl l pr r =>
          let '(il, m, c) := visit pl l m c in
          let '(ir, m, c) := visit pr r m c in (SAdd il ir, m, c)
        | EMul pl l pr r =>
          let '(il, m, c) := visit pl l m c in
          let '(ir, m, c) := visit pr r m c in (SMul il ir, m, c)
        | EPow pb b e =>
          let '(ib, m, c) := visit pb b m c in (SPow ib e, m, c)
        end in
      (length c, (p, length c) :: m, c ++ [s])
    end.
  (** lines 735-761 *)
  Definition from_expr (e : expr) : circuit :=
    match e with
    | EConst v => [SConst v]
    | EVar i => [SVar i]
    | EAdd pl l pr r =>
      let '(il, m, c) := visit pl l [] [] in
      let '(ir, m, c) := visit pr r m c in c ++ [SAdd il ir]
    | EMul pl l pr r =>
      let '(il, m, c) := visit pl l [] [] in
      let '(ir, m, c) := visit pr r m c in c ++ [SMul il ir]
    | EPow pb b x =>
      let '(ib, m, c) := visit pb b [] [] in c ++ [SPow ib x]
    end.

  (** lines 770-804: the [Arc] of step [i] gets the address [i] *)
  Definition node_expr (ns : list expr) (s : step) : option expr :=
    match s with
    | SConst v => Some (EConst v)
    | SVar i => Some (EVar i)
    | SAdd l r => do a <- nth_error ns l; do b <- nth_error ns r; Some (EAdd l a r b)
    | SMul l r => do a <- nth_error ns l; do b <- nth_error ns r; Some (EMul l a r b)
    | SPow b e => do a <- nth_error ns b; Some (EPow b a e)
    end.
  Definition to_expr (c : circuit) : option expr :=
    do ns <- ofold (fun ns s => do n <- node_expr ns s; Some (ns ++ [n])) c [];
    match rev ns with [] => None | n :: _ => Some n end.
End Model.

(** lines 385-399: [convert_field] along an embedding of fields *)
Definition convert_step {F G : field} (h : F -> G) (s : step F) : step G :=
  match s with
  | SAdd _ l r => SAdd G l r
  | SMul _ l r => SMul G l r
  | SPow _ b e => SPow G b e
  | SConst _ v => SConst G (h v)
  | SVar _ i => SVar G i
  end.
Definition convert_field {F G : field} (h : F -> G) (c : circuit F) : circuit G := map (convert_step h) c.

Arguments EConst {_}. Arguments EVar {_}. Arguments EAdd {_}. Arguments EMul {_}. Arguments EPow {_}.
Arguments SAdd {_}. Arguments SMul {_}. Arguments SPow {_}. Arguments SConst {_}. Arguments SVar {_}.
Arguments ppow {_} _ _ : simpl never. Arguments cvar {_}. Arguments cconst {_}. Arguments cpow {_}. Arguments offset_step {_}.
Arguments cadd {_}. Arguments cmul {_}. Arguments csub {_}. Arguments csum {_}. Arguments cproduct {_}.
Arguments step_val {_}. Arguments evals {_}. Arguments evaluate {_}. Arguments step_degree {_}. Arguments degree {_}.
Arguments var_bound {_}. Arguments n_vars {_}. Arguments eval_cost {_}. Arguments leading {_}. Arguments leading_term {_}.
Arguments remap_step {_}. Arguments remap_vars {_}. Arguments const_subst {_}. Arguments get_constant {_}. Arguments vars_usage {_}.
Arguments mkSparse {_}. Arguments sp_const {_}. Arguments sp_coeffs {_}. Arguments sp_len {_}. Arguments sp_of {_}.
Arguments map_add {_}. Arguments sp_add {_}. Arguments sp_mul {_}. Arguments sparse_form {_}. Arguments linear_normal_form {_}.
Arguments step_eqb {_}. Arguments opt_step {_}. Arguments optimize_constants {_}. Arguments node_eq {_}. Arguments circuit_eq {_}.
Arguments find_node {_}. Arguments redirect {_}. Arguments dedup_indices {_}. Arguments deduplicate_steps {_}.
Arguments mark_used {_}. Arguments compress_step {_}. Arguments compress_unused_steps {_}. Arguments optimize {_}.
Arguments visit {_}. Arguments from_expr {_}. Arguments node_expr {_}. Arguments to_expr {_}.
