(** Model of the multilinear-extension code of crates/math/src: tensor_prod_eq_ind.rs,
    multilinear_query.rs, multilinear_extension.rs, fold.rs, and of
    crates/field/src/util.rs (inner products) and byte_iteration.rs (partial-sum tables).

    Conventions and simplifications.
    - A slice of packed elements of width [W = 2^lw] is the flat list of its scalars; its length is
      a multiple of [W].  That packed arithmetic and packed indexing act scalar by scalar is what
      Field/PackedProps.v and Field/SliceProps.v prove about the packed types.
    - The scalars of a subfield are represented by their images in the extension field [F]
      (the embedding is a ring homomorphism, Field/TowerProps.v); 1-bit scalars are booleans where
      the code works on bits.
    - Loops of the form "for each position of [out], compute a value from the other arguments and
      write it", where no position is written twice or read, are modelled as maps over positions.
      Parallel loops (rayon) of that form are the same map.
    - An out-of-bounds access is [None] (a panic), also for the `_unchecked` accessors, where it
      would be undefined behaviour. *)
Require Import Coq.Arith.Arith Coq.Lists.List Coq.Bool.Bool.
From Verif Require Import Base.Fld Base.Lists Base.Sums.
Import ListNotations.

(** [usize::div_ceil] *)
Definition div_ceil (a b : nat) : nat := (a + b - 1) / b.
(** [usize::is_power_of_two] *)
Definition is_pow2 (n : nat) : bool := (0 <? n) && (2 ^ Nat.log2 n =? n).

Section Model.
  Variable F : field.
  Local Open Scope fld_scope.

  (** Sum of [n] terms, each of which may panic. *)
  Definition osum (n : nat) (f : nat -> option F) : option F :=
    ofold (fun acc t => do x <- f t; Some (acc + x)) (seq 0 n) 0.

  (* ------------------------------------------------------------------ *)
  (** * tensor_prod_eq_ind.rs *)

  (** tensor_prod_eq_ind.rs lines 46-77, one iteration of the outer loop ([prev_length = 2^m]). *)
  Definition tensor_step (lw m : nat) (r : F) (vals : list F) : option (list F) :=
    let prev := (2 ^ m)%nat in
    if prev <? 2 ^ lw then
      (* lines 48-54: the first packed element, scalar by scalar *)
      ofold (pair_step (fun _ _ x _ => let prod := x * r in Some (x - prod, prod)))
            (map (fun h => (h, Nat.lor prev h)) (seq 0 prev)) vals
    else
      (* lines 56-73: split, zip; [assert!(xs.len() <= ys.len())] *)
      let xs := firstn prev vals in
      let ys := skipn prev vals in
      if length xs <=? length ys then
        Some (map (fun x => x - x * r) xs
              ++ map (fun x => x * r) xs ++ skipn (length xs) ys)
      else None.

  Fixpoint tensor_loop (lw m : nat) (coords : list F) (vals : list F) : option (list F) :=
    match coords with
    | [] => Some vals
    | r :: rs => do v <- tensor_step lw m r vals; tensor_loop lw (S m) rs v
    end.

  (** tensor_prod_eq_ind.rs lines 36-77 *)
  Definition tensor_prod_eq_ind (lw log_n : nat) (vals coords : list F) : res (list F) :=
    let new_n := (log_n + length coords)%nat in
    if negb (length vals / 2 ^ lw =? Nat.max 1 (2 ^ new_n / 2 ^ lw)) then Err
    else of_opt (tensor_loop lw log_n coords vals).

  (** [zeroed_vec] of [2^k] packed elements with the first scalar set to one *)
  Definition one_vec (lw k : nat) : list F :=
    upd (repeat 0 (2 ^ k * 2 ^ lw)) 0 1.

  (** tensor_prod_eq_ind.rs lines 96-103 *)
  Definition eq_ind_partial_eval (lw : nat) (point : list F) : res (list F) :=
    expect (tensor_prod_eq_ind lw 0 (one_vec lw (length point - lw)) point).

  (* ------------------------------------------------------------------ *)
  (** * multilinear_query.rs *)

  (** multilinear_query.rs lines 19-27, 30-34 *)
  Record mquery : Type := mkQuery { q_nvars : nat; q_expanded : list F }.

  (** lines 65-73 *)
  Definition with_capacity (lw max_query_vars : nat) : mquery :=
    mkQuery 0 (one_vec lw (max_query_vars - lw)).

  (** lines 75-81 *)
  Definition query_expand (lw : nat) (coords : list F) : res mquery :=
    try e <- eq_ind_partial_eval lw coords; Ok (mkQuery (length coords) e).

  (** lines 85-97 *)
  Definition with_expansion (lw n : nat) (e : list F) : res mquery :=
    if length e / 2 ^ lw <? 2 ^ (n - lw) then Err else Ok (mkQuery n e).

  (** lines 58-61, 107-110: slicing panics if the buffer is too short *)
  Definition expansion (lw : nat) (q : mquery) : option (list F) :=
    let len := (2 ^ (q_nvars q - lw) * 2 ^ lw)%nat in
    if len <=? length (q_expanded q) then Some (firstn len (q_expanded q)) else None.

  (** lines 124-143 *)
  Definition query_update (lw : nat) (q : mquery) (coords : list F) : res mquery :=
    let new_n := (q_nvars q + length coords)%nat in
    let new_length := Nat.max (2 ^ new_n / 2 ^ lw) 1 in
    if length (q_expanded q) / 2 ^ lw <? new_length then Err
    else
      let cut := (new_length * 2 ^ lw)%nat in
      try e <- tensor_prod_eq_ind lw (q_nvars q) (firstn cut (q_expanded q)) coords;
      Ok (mkQuery new_n (e ++ skipn cut (q_expanded q))).

  (* ------------------------------------------------------------------ *)
  (** * crates/field/src/util.rs *)

  (** util.rs lines 11-20: the iterator stops at the shorter of the two *)
  Definition inner_product_unchecked (a b : list F) : F :=
    fsum (map (fun p => fst p * snd p) (combine a b)).

  (** util.rs lines 37-47, [xs] starting at offset [off] *)
  Definition product_by_ys (xs : list F) (off : nat) (ys : list F) : option F :=
    osum (length ys) (fun i => do x <- nth_error xs (off + i); do y <- nth_error ys i; Some (x * y)).

  (** util.rs lines 24-71; [CHUNK_SIZE] packed elements of [ys] are [chunk] scalars.  The parallel
      sum of the chunks is a sum in chunk order. *)
  Definition inner_product_par (ly : nat) (xs ys : list F) : option F :=
    let chunk_size := 64 in
    if negb (length xs <=? length ys) then None
    else if length xs <? length ys then Some (inner_product_unchecked xs ys)
    else if length ys / 2 ^ ly <? 16 * chunk_size then product_by_ys xs 0 ys
    else
      let chunk := (chunk_size * 2 ^ ly)%nat in
      osum (div_ceil (length ys) chunk)
           (fun i => product_by_ys xs (i * chunk) (firstn chunk (skipn (i * chunk) ys))).

  (* ------------------------------------------------------------------ *)
  (** * fold.rs *)

  (** fold.rs lines 249-286 *)
  Definition check_fold_arguments (n q evals_len query_len out_len : nat) : bool :=
    negb (n <? q) && negb (evals_len <? 2 ^ n) && negb (query_len <? 2 ^ q)
    && negb (out_len <? 2 ^ (n - q)).

  (** fold.rs lines 688-719; [le] is [PE::LOG_WIDTH] *)
  Definition fold_right_fallback (le : nat) (evals : list F) (n : nat) (query : list F) (q : nat)
      (out : list F) : option (list F) :=
    omap (fun i =>
            let k := i / 2 ^ le in let j := i mod 2 ^ le in
            if j <? Nat.min (2 ^ le) (2 ^ (n - q)) then
              let index := Nat.lor (Nat.shiftl k le) j in
              let offset := Nat.shiftl index q in
              osum (length (firstn (2 ^ q) query))
                   (fun t => do e <- nth_error query t; do x <- nth_error evals (t + offset); Some (e * x))
            else nth_error out i)
         (seq 0 (length out)).

  (** fold.rs lines 288-312 *)
  Definition check_right_lerp (evals_len size out_len : nat) : bool :=
    negb (evals_len <? size) && negb (out_len * 2 <? size).

  (** fold.rs lines 518-571 *)
  Definition fold_right_lerp (le : nat) (evals : list F) (size : nat) (lerp suffix : F) (out : list F)
    : res (list F) :=
    if negb (check_right_lerp (length evals) size (length out)) then Err
    else
      let half := Nat.div2 size in
      let upto := div_ceil half (2 ^ le) in
      if length out <? upto * 2 ^ le then Panic
      else of_opt (
        do out1 <- omap (fun i =>
            let k := i / 2 ^ le in let j := i mod 2 ^ le in
            if (k <? upto) && (j <? Nat.min (2 ^ le) (half - Nat.shiftl k le)) then
              let index := Nat.lor (Nat.shiftl k le) j in
              do eval0 <- nth_error evals (Nat.shiftl index 1);
              do eval1 <- nth_error evals (Nat.lor (Nat.shiftl index 1) 1);
              Some ((eval1 - eval0) * lerp + eval0)
            else nth_error out i)
          (seq 0 (length out));
        if size mod 2 =? 1 then
          do eval0 <- nth_error evals (Nat.shiftl half 1);
          if half <? length out1 then Some (upd out1 half ((suffix - eval0) * lerp + eval0)) else None
        else Some out1).

  (** fold.rs lines 87-121, for scalar types other than [BinaryField1b] *)
  Definition rs_fold_right (le : nat) (evals : list F) (n : nat) (query : list F) (q : nat) (out : list F)
    : res (list F) :=
    if negb (check_fold_arguments n q (length evals) (length query) (length out)) then Err
    else if q =? 1 then
      match nth_error query 0, nth_error query 1 with
      | Some q0, Some q1 =>
        if feqb (q0 + q1) 1 then fold_right_lerp le evals (2 ^ n) q1 0 out
        else of_opt (fold_right_fallback le evals n query q out)
      | _, _ => Panic
      end
    else of_opt (fold_right_fallback le evals n query q out).

  (** fold.rs lines 896-930 *)
  Definition fold_left_fallback (le : nat) (evals : list F) (n : nat) (query : list F) (q : nat)
      (out_len : nat) : option (list F) :=
    let new_n := (n - q)%nat in
    omap (fun i =>
            let outer := i / 2 ^ le in let inner := i mod 2 ^ le in
            if inner <? Nat.min (2 ^ le) (2 ^ new_n) then
              osum (length (firstn (2 ^ q) query))
                   (fun t => do e <- nth_error query t;
                      do x <- nth_error evals (Nat.lor (Nat.lor (Nat.shiftl t new_n) (Nat.shiftl outer le)) inner);
                      Some (e * x))
            else Some 0)
         (seq 0 out_len).

  (** fold.rs lines 314-354 *)
  Definition check_left_lerp (evals_len prefix n out_len : nat) : bool :=
    negb (n =? 0) && negb (2 ^ n <? prefix) && negb (evals_len <? prefix)
    && negb (out_len <? Nat.min prefix (2 ^ (n - 1))).

  (** fold.rs lines 586-632.  [out] is the previous content of the (possibly uninitialised) output. *)
  Definition fold_left_lerp (lw : nat) (evals : list F) (prefix : nat) (suffix : F) (n : nat) (lerp : F)
      (out : list F) : res (list F) :=
    if negb (check_left_lerp (length evals) prefix n (length out)) then Err
    else if lw <? n then
      let W := (2 ^ lw)%nat in
      let pivot := div_ceil (prefix - 2 ^ (n - 1)) W in
      let packed_len := (2 ^ (n - 1 - lw))%nat in
      let upper := Nat.min (div_ceil prefix W) packed_len in
      (* slices: split_at(packed_len), out[..pivot], out[pivot..upper], evals[pivot..], out[upper..] *)
      if ((0 <? pivot) && ((length evals / W <? packed_len) || (length out / W <? pivot)))
         || (upper <? pivot) || (length out / W <? upper) || (length evals / W <? pivot) then Panic
      else of_opt (
        omap (fun i =>
            let p := i / W in
            if p <? pivot then
              do e0 <- nth_error evals i; do e1 <- nth_error evals (packed_len * W + i);
              Some (e0 + (e1 - e0) * lerp)
            else if p <? upper then
              do e <- nth_error evals i; Some (e + (suffix - e) * lerp)
            else Some 0)
          (seq 0 (length out)))
    else if 0 <? prefix then
      (* lines 618-629: one packed word *)
      if (length evals <? 2 ^ lw) || (length out <? 2 ^ lw) then Panic
      else
        let half := (2 ^ (n - 1))%nat in
        of_opt (
          do w <- omap (fun i =>
              if i <? half then
                do e0 <- nth_error evals i; do e1 <- nth_error evals (Nat.lor i half);
                Some (e0 + lerp * (e1 - e0))
              else Some 0) (seq 0 (2 ^ lw));
          Some (w ++ skipn (2 ^ lw) out))
    else Ok out.

  (** fold.rs lines 640-684; returns the updated vector *)
  Definition fold_left_lerp_inplace (lw : nat) (evals : list F) (prefix : nat) (suffix : F) (n : nat)
      (lerp : F) : res (list F) :=
    if negb (check_left_lerp (length evals) prefix n (length evals)) then Err
    else if lw <? n then
      let W := (2 ^ lw)%nat in
      let pivot := div_ceil (prefix - 2 ^ (n - 1)) W in
      let packed_len := (2 ^ (n - 1 - lw))%nat in
      let upper := Nat.min (div_ceil prefix W) packed_len in
      if ((0 <? pivot) && ((length evals / W <? packed_len) || (packed_len <? pivot)))
         || (upper <? pivot) || (length evals / W <? upper) then Panic
      else of_opt (
        omap (fun i =>
            let p := i / W in
            if p <? pivot then
              do e0 <- nth_error evals i; do e1 <- nth_error evals (packed_len * W + i);
              Some (e0 + (e1 - e0) * lerp)
            else do e <- nth_error evals i; Some (e + (suffix - e) * lerp))
          (seq 0 (upper * W)))
    else if 0 <? prefix then
      if length evals <? 2 ^ lw then Panic
      else
        let half := (2 ^ (n - 1))%nat in
        of_opt (
          do w <- omap (fun i =>
              if i <? half then
                do e0 <- nth_error evals i; do e1 <- nth_error evals (Nat.lor i half);
                Some (e0 + lerp * (e1 - e0))
              else Some 0) (seq 0 (2 ^ lw));
          Some (w ++ skipn (2 ^ lw) evals))
    else Ok evals.

  (** fold.rs lines 134-180, for scalar types other than [BinaryField1b]; [same] tells whether the
      types [P] and [PE] are the same.  [out] is the previous content of the output. *)
  Definition rs_fold_left (same : bool) (le : nat) (evals : list F) (n : nat) (query : list F) (q : nat)
      (out : list F) : res (list F) :=
    if negb (check_fold_arguments n q (length evals) (length query) (length out)) then Err
    else
      let fallback := of_opt (fold_left_fallback le evals n query q (length out)) in
      if q =? 1 then
        match nth_error query 0, nth_error query 1 with
        | Some q0, Some q1 =>
          if feqb (q0 + q1) 1 && same then fold_left_lerp le evals (2 ^ n) 0 n q1 out else fallback
        | _, _ => Panic
        end
      else fallback.

  (** fold.rs lines 190-246 *)
  Definition fold_middle (le : nat) (evals : list F) (n : nat) (query : list F) (q start : nat)
      (out_len : nat) : res (list F) :=
    if negb (check_fold_arguments n q (length evals) (length query) out_len) then Err
    else if n <? q + start then Err
    else
      let lower := (2 ^ start)%nat in
      let new_n := (n - q)%nat in
      of_opt (omap (fun i =>
        let outer := i / 2 ^ le in let inner := i mod 2 ^ le in
        if inner <? Nat.min (2 ^ le) (2 ^ new_n) then
          let osi := (Nat.shiftl outer le + inner)%nat in
          let inner_i := osi mod lower in
          let inner_j := osi / lower in
          osum (length (firstn (2 ^ q) query))
               (fun t => do e <- nth_error query t;
                  let offset := Nat.lor (Nat.shiftl inner_j (start + q)) inner_i in
                  do x <- nth_error evals (offset + Nat.shiftl t start); Some (e * x))
        else Some 0) (seq 0 out_len)).

  (** fold.rs lines 27-78.  [out] is the previous content of the output. *)
  Definition zero_pad (le : nat) (evals : list F) (n new_n start nonzero : nat) (out : list F)
    : res (list F) :=
    if n <? start then Err
    else if new_n <? n then Panic (* line 46: subtraction overflow *)
    else
      let extra := (new_n - n)%nat in
      if 2 ^ extra <? nonzero then Err
      else
        let block := (2 ^ start)%nat in
        let per_row := (2 ^ (start + extra))%nat in
        let start_in_row := (nonzero * block)%nat in
        of_opt (omap (fun i =>
          let outer := i / 2 ^ le in let inner := i mod 2 ^ le in
          if inner <? Nat.min (2 ^ le) (2 ^ n) then
            let osi := (Nat.shiftl outer le + inner)%nat in
            let col := osi mod per_row in
            let row := osi / per_row in
            if (start_in_row <=? col) && (col <? start_in_row + block) then
              nth_error evals (row * block + col - start_in_row)
            else nth_error out i
          else nth_error out i) (seq 0 (length out))).

  (* ------------------------------------------------------------------ *)
  (** * 1-bit folds (fold.rs lines 357-505, 739-894; byte_iteration.rs) *)

  (** The 1-bit scalar as an element of the extension field. *)
  Definition of_bit (b : bool) : F := if b then 1 else 0.

  (** Byte [i] of the memory of a slice of 1-bit scalars: bit [k] is scalar [8 i + k]
      (byte_iteration.rs lines 20-27, [SequentialBytes]). *)
  Definition byte_at (bits : list bool) (i : nat) : nat :=
    List.fold_right Nat.add 0%nat
      (map (fun k => if nth (8 * i + k) bits false then (2 ^ k)%nat else 0%nat) (seq 0 8)).

  Definition n_bytes (bits : list bool) : nat := length bits / 8.

  (** fold.rs lines 370-381 *)
  Definition cached_table (lq : nat) (query : list F) : option (list F) :=
    omap (fun i =>
            ofold (fun acc j => if Nat.testbit i j then do x <- nth_error query j; Some (acc + x) else Some acc)
                  (seq 0 (2 ^ lq)) 0)
         (seq 0 (2 ^ 2 ^ lq)).

  (** fold.rs lines 357-419; [None]: a panic or an out-of-bounds unchecked write;
      [Some None]: the function returned false. *)
  Definition fold_right_1bit_small (lw le lq : nat) (bits : list bool) (query out : list F)
    : option (option (list F)) :=
    if (3 <=? lq) || (le <? lw + lq) then Some None
    else
      do table <- cached_table lq query;
      let mask := (2 ^ 2 ^ lq - 1)%nat in
      let per_byte := (2 ^ (3 - lq))%nat in
      let written := (n_bytes bits * per_byte)%nat in
      if length out <? written then None
      else
        do o <- omap (fun i =>
            if i <? written then
              let byte := byte_at bits (i / per_byte) in
              let k := i mod per_byte in
              nth_error table (Nat.land (Nat.shiftr byte (k * 2 ^ lq)) mask)
            else nth_error out i) (seq 0 (length out));
        Some (Some o).

  (** byte_iteration.rs lines 388-411: one table of 256 sums per group of eight values *)
  Definition sums_step (sums : list F) (value : F) (j : nat) : option (list F) :=
    let mask := (2 ^ j)%nat in
    (* for i in (mask..256).step_by(2 * mask), for k in 0..mask: sums[i + k] += value *)
    ofold (fun s ik => do x <- nth_error s ik; Some (upd s ik (x + value)))
          (flat_map (fun c => map (fun k => (mask + c * (2 * mask) + k)%nat) (seq 0 mask))
                    (seq 0 (256 / (2 * mask)))) sums.

  Definition sums_table (values : list F) (chunk_start : nat) : option (list F) :=
    ofold (fun s j => do v <- nth_error values (chunk_start + j); sums_step s v j)
          (seq 0 8) (repeat 0 256).

  Definition create_partial_sums (values : list F) : option (list F) :=
    if length values mod 8 =? 0 then
      do ts <- omap (fun c => sums_table values (8 * c)) (seq 0 (length values / 8));
      Some (concat ts)
    else None.

  (** fold.rs lines 421-484: the callback's loop over the bytes.  State: output, current index,
      current table, current value. *)
  Definition medium_step (lq : nat) (tables : list F) (bits : list bool)
      (st : list F * nat * nat * F) (b : nat) : option (list F * nat * nat * F) :=
    let '(out, ci, ct, cv) := st in
    do s <- nth_error tables (ct * 256 + byte_at bits b);
    let cv' := cv + s in
    let ct' := S ct in
    if ct' =? 2 ^ (lq - 3) then
      if ci <? length out then Some (upd out ci cv', S ci, 0%nat, 0) else None
    else Some (out, ci, ct', cv').

  Definition fold_right_1bit_medium (lq : nat) (bits : list bool) (query out : list F)
    : option (option (list F)) :=
    if lq <? 3 then Some None
    else
      do tables <- create_partial_sums (firstn (2 ^ lq) query);
      do st <- ofold (medium_step lq tables bits) (seq 0 (n_bytes bits)) (out, 0%nat, 0%nat, 0);
      let '(o, _, _, _) := st in Some (Some o).

  (** fold.rs lines 486-505; [can_iter] is [can_iterate_bytes::<P>()] *)
  Definition fold_right_1bit_evals (can_iter : bool) (lw le : nat) (bits : list bool) (n : nat)
      (query : list F) (q : nat) (out : list F) : option (option (list F)) :=
    if (n <? lw) || negb can_iter then Some None
    else if q <? 3 then fold_right_1bit_small lw le q bits query out
    else if q <=? 7 then fold_right_1bit_medium q bits query out
    else Some None.

  (** fold.rs lines 87-121 with [P::Scalar = BinaryField1b] *)
  Definition fold_right_1b (can_iter : bool) (lw le : nat) (bits : list bool) (n : nat) (query : list F)
      (q : nat) (out : list F) : res (list F) :=
    if negb (check_fold_arguments n q (length bits) (length query) (length out)) then Err
    else match fold_right_1bit_evals can_iter lw le bits n query q out with
         | None => Panic
         | Some (Some o) => Ok o
         | Some None => rs_fold_right le (map of_bit bits) n query q out
         end.

  (** fold.rs lines 838-868, [items_b128 = 2^le]: for each byte and each group of [2^le] bits the
      lanes (128-bit elements) that are filled with ones.  A lane of ones is [true]. *)
  Definition lookup_masks (le : nat) : list (list bool) :=
    flat_map (fun i =>
      map (fun j =>
        let bits := Nat.land (Nat.shiftr i (j * 2 ^ le)) (2 ^ 2 ^ le - 1) in
        map (fun k => Nat.testbit (Nat.shiftr bits k) 0) (seq 0 (2 ^ le)))
      (seq 0 (8 / 2 ^ le))) (seq 0 256).

  (** fold.rs lines 886-907: one row; [out += query_val & mask] lane by lane *)
  Definition left_1b_row (le : nat) (masks : list (list bool)) (row : list nat) (qv : F) (out : list F)
    : option (list F) :=
    let items := 8 / 2 ^ le in
    if length out <? length row * items * 2 ^ le then None
    else omap (fun x =>
      let p := x / 2 ^ le in let lane := x mod 2 ^ le in
      let bi := p / items in let i := p mod items in
      do o <- nth_error out x;
      if bi <? length row then
        do byte <- nth_error row bi;
        do m <- nth_error masks (byte * items + i);
        do b <- nth_error m lane;
        Some (o + (if b : bool then qv else 0))
      else Some o) (seq 0 (length out)).

  (** fold.rs lines 874-908 *)
  Definition fold_left_1b_128b_impl (le : nat) (bits : list bool) (n : nat) (query : list F) (q : nat)
      (out : list F) : option (list F) :=
    let row_bytes := (2 ^ (n - q - 3))%nat in
    let rows := div_ceil (n_bytes bits) row_bytes in
    ofold (fun o t =>
             do qv <- nth_error query t;
             left_1b_row le (lookup_masks le)
               (map (byte_at bits) (seq (t * row_bytes) (Nat.min row_bytes (n_bytes bits - t * row_bytes)))) qv o)
          (seq 0 (Nat.min (length query) rows)) (repeat 0 (length out)).

  (** fold.rs lines 739-827; [seq_bytes] is [is_sequential_bytes::<P>()] and [opt] tells whether
      [PE] is the arch-optimal packing of a 128-bit field *)
  Definition fold_left_1b_128b (seq_bytes opt : bool) (lw le : nat) (bits : list bool) (n : nat)
      (query : list F) (q : nat) (out : list F) : option (option (list F)) :=
    if (n <? lw) || negb seq_bytes || (n - q <? 3) || (3 <? le) || negb opt then Some None
    else do o <- fold_left_1b_128b_impl le bits n query q out; Some (Some o).

  (** fold.rs lines 134-180 with [P::Scalar = BinaryField1b] (then [P] and [PE] differ) *)
  Definition fold_left_1b (seq_bytes opt : bool) (lw le : nat) (bits : list bool) (n : nat)
      (query : list F) (q : nat) (out : list F) : res (list F) :=
    if negb (check_fold_arguments n q (length bits) (length query) (length out)) then Err
    else match fold_left_1b_128b seq_bytes opt lw le bits n query q out with
         | None => Panic
         | Some (Some o) => Ok o
         | Some None => rs_fold_left false le (map of_bit bits) n query q out
         end.

  (* ------------------------------------------------------------------ *)
  (** * multilinear_extension.rs *)

  (** lines 26-31 *)
  Record mlext : Type := mkMle { me_mu : nat; me_evals : list F }.

  (** lines 34-45 *)
  Definition me_zeros (lw n : nat) : res mlext :=
    if n <? lw then Err else Ok (mkMle n (repeat 0 (2 ^ (n - lw) * 2 ^ lw))).

  (** lines 57-64 *)
  Definition me_from_values (lw : nat) (v : list F) : res mlext :=
    let len := length v / 2 ^ lw in
    if negb (is_pow2 len) then Err else Ok (mkMle (Nat.log2 len + lw) v).

  (** lines 66-90 *)
  Definition me_new (lw n : nat) (v : list F) : res mlext :=
    let len := length v / 2 ^ lw in
    if negb (is_pow2 len) then Err
    else if n <? lw then (if len =? 1 then Ok (mkMle n v) else Err)
    else if lw + Nat.log2 len =? n then Ok (mkMle n v) else Err.

  (** lines 134-158 *)
  Definition evaluate_on_hypercube (lw : nat) (m : mlext) (index : nat) : res F :=
    if 2 ^ me_mu m <=? index then Err
    else let p := index / 2 ^ lw in
         if length (me_evals m) / 2 ^ lw <=? p then Err
         else of_opt (nth_error (me_evals m) (p * 2 ^ lw + index mod 2 ^ lw)).

  (** lines 165-191; [lw]: packing of the polynomial, [le]: packing of the query *)
  Definition me_evaluate (lw le : nat) (m : mlext) (q : mquery) : res F :=
    if negb (me_mu m =? q_nvars q) then Err
    else of_opt (
      do ex <- expansion le q;
      if (me_mu m <? lw) || (q_nvars q <? le) then
        inner_product_par 0 (firstn (2 ^ q_nvars q) ex) (firstn (2 ^ me_mu m) (me_evals m))
      else inner_product_par lw ex (me_evals m)).

  (** lines 302-343 *)
  Definition evaluate_partial_low (le : nat) (m : mlext) (q : mquery) : res mlext :=
    if me_mu m <? q_nvars q then Err
    else
      let new_n := (me_mu m - q_nvars q)%nat in
      try ex <- of_opt (expansion le q);
      try o <- rs_fold_right le (me_evals m) (me_mu m) ex (q_nvars q) (repeat 0 (2 ^ (new_n - le) * 2 ^ le));
      me_new le new_n o.

  (** lines 253-285.  [uninit]: content of the freshly allocated output *)
  Definition evaluate_partial_high (same : bool) (le : nat) (m : mlext) (q : mquery) (uninit : list F)
    : res mlext :=
    let new_n := (me_mu m - q_nvars q)%nat in
    try ex <- of_opt (expansion le q);
    try o <- rs_fold_left same le (me_evals m) (me_mu m) ex (q_nvars q) uninit;
    me_new le new_n o.

  (** lines 194-235 *)
  Definition evaluate_partial (same : bool) (le : nat) (m : mlext) (q : mquery) (start : nat)
      (uninit : list F) : res mlext :=
    if me_mu m <? start + q_nvars q then Err
    else if start =? 0 then evaluate_partial_low le m q
    else if start + q_nvars q =? me_mu m then evaluate_partial_high same le m q uninit
    else if me_mu m <? q_nvars q then Err
    else
      let new_n := (me_mu m - q_nvars q)%nat in
      try ex <- of_opt (expansion le q);
      try o <- fold_middle le (me_evals m) (me_mu m) ex (q_nvars q) start (2 ^ (new_n - le) * 2 ^ le);
      me_new le new_n o.

  (** lines 359-384 *)
  Definition me_zero_pad (le : nat) (m : mlext) (n_pad start nonzero : nat) : res mlext :=
    if me_mu m <? start then Err
    else
      let new_n := (me_mu m + n_pad)%nat in
      if 2 ^ n_pad <=? nonzero then Err
      else
        try o <- zero_pad le (me_evals m) (me_mu m) new_n start nonzero (repeat 0 (2 ^ (new_n - le) * 2 ^ le));
        me_new le new_n o.
End Model.

Arguments osum {_} _ _.
Arguments tensor_step {_} _ _ _ _.
Arguments tensor_loop {_} _ _ _ _.
Arguments tensor_prod_eq_ind {_} _ _ _ _.
Arguments one_vec {_} _ _.
Arguments eq_ind_partial_eval {_} _ _.
Arguments mkQuery {_} _ _.
Arguments q_nvars {_} _.
Arguments q_expanded {_} _.
Arguments with_capacity {_} _ _.
Arguments query_expand {_} _ _.
Arguments with_expansion {_} _ _ _.
Arguments expansion {_} _ _.
Arguments query_update {_} _ _ _.
Arguments inner_product_unchecked {_} _ _.
Arguments product_by_ys {_} _ _ _.
Arguments inner_product_par {_} _ _ _.
Arguments fold_right_fallback {_} _ _ _ _ _ _.
Arguments fold_right_lerp {_} _ _ _ _ _ _.
Arguments rs_fold_right {_} _ _ _ _ _ _.
Arguments fold_left_fallback {_} _ _ _ _ _ _.
Arguments fold_left_lerp {_} _ _ _ _ _ _ _.
Arguments fold_left_lerp_inplace {_} _ _ _ _ _ _.
Arguments rs_fold_left {_} _ _ _ _ _ _ _.
Arguments fold_middle {_} _ _ _ _ _ _ _.
Arguments zero_pad {_} _ _ _ _ _ _ _.
Arguments of_bit {_} _.
Arguments cached_table {_} _ _.
Arguments fold_right_1bit_small {_} _ _ _ _ _ _.
Arguments sums_step {_} _ _ _.
Arguments sums_table {_} _ _.
Arguments create_partial_sums {_} _.
Arguments medium_step {_} _ _ _ _ _.
Arguments fold_right_1bit_medium {_} _ _ _ _.
Arguments fold_right_1bit_evals {_} _ _ _ _ _ _ _ _.
Arguments fold_right_1b {_} _ _ _ _ _ _ _ _.
Arguments left_1b_row {_} _ _ _ _ _.
Arguments fold_left_1b_128b_impl {_} _ _ _ _ _ _.
Arguments fold_left_1b_128b {_} _ _ _ _ _ _ _ _ _.
Arguments fold_left_1b {_} _ _ _ _ _ _ _ _ _.
Arguments mkMle {_} _ _.
Arguments me_mu {_} _.
Arguments me_evals {_} _.
Arguments me_zeros {_} _ _.
Arguments me_from_values {_} _ _.
Arguments me_new {_} _ _ _.
Arguments evaluate_on_hypercube {_} _ _ _.
Arguments me_evaluate {_} _ _ _ _.
Arguments evaluate_partial_low {_} _ _ _.
Arguments evaluate_partial_high {_} _ _ _ _ _.
Arguments evaluate_partial {_} _ _ _ _ _ _.
Arguments me_zero_pad {_} _ _ _ _ _.
