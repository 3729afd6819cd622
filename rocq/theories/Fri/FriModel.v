(** Model of crates/core/src/protocols/fri/{common,verify,prove}.rs and of the reference
    implementation of fri_fold (crates/compute/src/cpu/layer.rs 304-391).

    - The decommitment part of the transcript is the list of the bytes still to be read.  Neither reading
      from it nor writing to it touches the Fiat-Shamir state (crates/core/src/transcript/mod.rs 190-195,
      256-261), so the query indices are a given list.
    - Scalars are written with [enc] and read with [dec].
    - A slice of packed elements of width [2^lw] is a list of lists of [2^lw] scalars where the packing
      matters and the flat list of its scalars elsewhere.  Subfield scalars are represented by their
      images in the extension field, as in Code/FriFoldModel.v.
    - Host and device buffers are the same lists; running out of device memory is not modelled.
    - [calculate_n_test_queries] computes in floating point: the number of queries is a parameter. *)
Require Import Coq.NArith.NArith Coq.Arith.Arith Coq.Lists.List Coq.Bool.Bool.
From Verif Require Import Base.Fld Base.Lists Base.Sums Base.Chunks Math.UnivariateModel Math.MleModel
  Ntt.TwiddleModel Ntt.NttModel Code.RsModel Code.FriFoldModel Transcript.SerModel Merkle.MerkleModel.
Import ListNotations.
Local Close Scope N_scope. Local Open Scope nat_scope.

(** [a - b] on usize, with overflow checks *)
Definition sub_or_panic (a b : nat) : res nat := if a <? b then Panic else Ok (a - b).

Fixpoint map_res {A B} (f : A -> res B) (l : list A) : res (list B) :=
  match l with
  | [] => Ok []
  | a :: r => try b <- f a; try bs <- map_res f r; Ok (b :: bs)
  end.

(** [&l[start..start + len]] *)
Definition slice_of {A} (l : list A) (start len : nat) : res (list A) :=
  if length l <? start + len then Panic else Ok (firstn len (skipn start l)).

Section Params.
  Variable F : field.

  (** common.rs 17-34 *)
  Record fri_params := mkParams {
    fp_code : rs_code F; fp_log_batch : nat; fp_arities : list nat; fp_queries : nat }.

  (** FRIParams::new (41-58) *)
  Definition new_params (code : rs_code F) (log_batch : nat) (arities : list nat) (queries : nat) : res fri_params :=
    if rs_log_dim code + log_batch <=? list_sum arities then Err
    else Ok (mkParams code log_batch arities queries).

  (** choose_with_constant_fold_arity (68-137); [n_queries code] stands for calculate_n_test_queries. *)
  Definition constant_arities (log_msg_len log_inv_rate arity n_test_queries : nat) : list nat :=
    repeat arity ((log_msg_len - (Nat.log2_up n_test_queries - log_inv_rate)) / arity).
  Definition choose_constant (ts : list (twiddle F)) (n_queries : rs_code F -> res nat)
      (log_msg_len log_inv_rate arity : nat) : res fri_params :=
    if arity =? 0 then Panic
    else
      try code <- with_ntt_subspace ts (log_msg_len - arity) log_inv_rate;
      try q <- n_queries code;
      new_params code (Nat.min log_msg_len arity) (constant_arities log_msg_len log_inv_rate arity q) q.

  (** 139-141, 144-146 *)
  Definition n_fold_rounds (p : fri_params) : nat := rs_log_dim (fp_code p) + fp_log_batch p.
  Definition n_oracles (p : fri_params) : nat := length (fp_arities p).
  (** 168-170 *)
  Definition fp_log_len (p : fri_params) : nat := rs_log_len (fp_code p) + fp_log_batch p.
  (** 149-155.  The subtractions here and in the next two functions do not underflow for parameters
      accepted by [new_params]: see fri_params_accounting and fri_layer_depths. *)
  Definition index_bits (p : fri_params) : nat :=
    match fp_arities p with a :: _ => fp_log_len p - a | [] => 0 end.
  (** 158-160 *)
  Definition n_final_challenges (p : fri_params) : nat := n_fold_rounds p - list_sum (fp_arities p).
  (** vcs_optimal_layers_depths_iter (174-190) *)
  Fixpoint scan_depths (queries log_n_cosets : nat) (arities : list nat) : list nat :=
    match arities with
    | [] => []
    | a :: r => optimal_verify_layer queries (log_n_cosets - a) :: scan_depths queries (log_n_cosets - a) r
    end.
  Definition layer_depths (p : fri_params) : list nat := scan_depths (fp_queries p) (fp_log_len p) (fp_arities p).
End Params.
Arguments mkParams {_} _ _ _ _.
Arguments fp_code {_} _.
Arguments fp_log_batch {_} _.
Arguments fp_arities {_} _.
Arguments fp_queries {_} _.
Arguments new_params {_} _ _ _ _.
Arguments choose_constant {_} _ _ _ _ _.
Arguments n_fold_rounds {_} _.
Arguments n_oracles {_} _.
Arguments fp_log_len {_} _.
Arguments index_bits {_} _.
Arguments n_final_challenges {_} _.
Arguments layer_depths {_} _.

(** estimate_optimal_arity (common.rs 224-252).  [scan] stops at the first arity whose estimate is larger
    than the previous one. *)
Definition arity_cost (log_block_length digest_size field_size arity : nat) : nat :=
  (log_block_length / 2 * digest_size + 2 ^ arity * field_size) * (log_block_length - arity) / arity.
Fixpoint scan_best (cost : nat -> nat) (old : option (nat * nat)) (arities : list nat) : option (nat * nat) :=
  match arities with
  | [] => old
  | a :: r =>
    match old with
    | Some (_, c) => if c <? cost a then old else scan_best cost (Some (a, cost a)) r
    | None => scan_best cost (Some (a, cost a)) r
    end
  end.
Definition estimate_optimal_arity (log_block_length digest_size field_size : nat) : nat :=
  match scan_best (arity_cost log_block_length digest_size field_size) None (seq 1 log_block_length) with
  | Some (a, _) => a
  | None => 1
  end.

(* ------------------------------------------------------------------ *)
(** * fri_fold of the compute layers *)
Section FriFold.
  Variable F : field.
  Local Open Scope fld_scope.

  (** layer.rs 357-367: one interleave challenge; [len] is the length of [current_values] *)
  Definition lerp_round (len : nat) (values : list F) (c : F) : option (list F) :=
    ofold (fun values o =>
      do a <- nth_error values (o * 2);
      do b <- nth_error values (o * 2 + 1);
      Some (upd values o (extrapolate_line a b c))) (seq 0 (len / 2)) values.
  Fixpoint lerp_rounds (len : nat) (values cs : list F) : option (list F) :=
    match cs with
    | [] => Some values
    | c :: cs => do values' <- lerp_round len values c; lerp_rounds (len / 2) values' cs
    end.

  (** 354-387; the fold rounds of lines 370-385 are those of [fold_chunk] *)
  Definition cpu_fold_one (ts : list (twiddle F)) (log_len log_batch chunk_index : nat) (chunk challenges : list F) : option F :=
    do values <- lerp_rounds (2 ^ length challenges) chunk (firstn log_batch challenges);
    let fold_challenges := skipn log_batch challenges in
    do values' <- fold_rounds ts log_len (length fold_challenges) chunk_index values fold_challenges;
    nth_error values' 0.

  (** 304-391; [data_out] is only written *)
  Definition cpu_fri_fold (ts : list (twiddle F)) (log_len log_batch : nat) (challenges data_in data_out : list F)
    : res (list F) :=
    if negb (length data_in =? 2 ^ (log_len + log_batch))%nat then Err
    else if (length challenges <? log_batch)%nat then Err
    else if (log_batch + log_len <? length challenges)%nat then Err
    else if negb (length data_out =? 2 ^ (log_len - (length challenges - log_batch)))%nat then Err
    else
      let cs := Chunks.chunks (2 ^ length challenges) data_in in
      of_opt (omap (fun '(i, chunk) => cpu_fold_one ts log_len log_batch i chunk challenges)
                (firstn (length data_out) (combine (seq 0 (length cs)) cs))).

  (** fri_fold of crates/fast_compute/src/layer.rs 468-513.  [unpackable]: the packed type can be
      viewed as a slice of scalars.  The other branch passes [packed], which is [data_out], where the
      codeword is expected. *)
  Definition fast_fri_fold (unpackable : bool) (lw : nat) (ts : list (twiddle F)) (stale : nat -> list F) (log_len log_batch : nat)
      (challenges data_in data_out : list F) : res (list F) :=
    if unpackable then
      of_opt (fold_interleaved_allocated lw ts data_in challenges log_len log_batch stale data_out)
    else
      if (length challenges <? log_batch)%nat then Panic
      else if (log_len <? length challenges - log_batch)%nat then Panic
      else
        try out <- of_opt (fold_interleaved_allocated lw ts data_out challenges log_len log_batch stale
                             (repeat 0 (2 ^ (log_len - (length challenges - log_batch)))));
        Ok (map (fun i => nth i out 0) (seq 0 (length data_out))).
End FriFold.
Arguments lerp_round {_} _ _ _.
Arguments lerp_rounds {_} _ _ _.
Arguments cpu_fold_one {_} _ _ _ _ _ _.
Arguments cpu_fri_fold {_} _ _ _ _ _ _.
Arguments fast_fri_fold {_} _ _ _ _ _ _ _ _ _.

(* ------------------------------------------------------------------ *)
Section Fri.
  Variable F : field.
  Variable enc : F -> list byte.
  Variable dec : list byte -> res (F * list byte).
  Variable hash : list byte -> list byte.
  Variable osz bsz : nat.
  Variable compress : list byte -> list byte -> list byte.
  Variable utf8 : list byte -> bool.
  Notation D := (list byte).
  Local Open Scope fld_scope.

  (** ** Verifier *)
  (** verify.rs 28-45 *)
  Record verifier := mkVerifier {
    v_params : fri_params F;
    v_commitment : D;
    v_rounds : list D;
    v_tensor : list F;
    v_challenges : list F }.

  (** FRIVerifier::new (54-92) *)
  Definition verifier_new (p : fri_params F) (commitment : D) (rounds : list D) (challenges : list F) : res verifier :=
    if negb (length rounds =? n_oracles p)%nat then Err
    else if negb (length challenges =? n_fold_rounds p)%nat then Err
    else
      try q <- query_expand 0 (firstn (fp_log_batch p) challenges);
      try tensor <- of_opt (expansion 0 q);
      Ok (mkVerifier p commitment rounds tensor (skipn (fp_log_batch p) challenges)).

  (** read_scalar_slice (transcript/mod.rs 327-340) *)
  Definition read_scalars (n : nat) (tape : list byte) : res (list F * list byte) := de_items dec n tape.

  (** verify_last_oracle (152-223) *)
  Definition verify_last_oracle (v : verifier) (ts : list (twiddle F)) (terminate : list F) : res F :=
    let p := v_params v in
    let n_final := n_final_challenges p in
    let code := fp_code p in
    try _ <- verify_vector F enc hash bsz compress (last (v_rounds v) (v_commitment v)) terminate (2 ^ n_final);
    try repetition <-
      (if negb (n_oracles p =? 0)%nat then
         try n_prior <- sub_or_panic (length (v_challenges v)) n_final;
         let final_challenges := skipn n_prior (v_challenges v) in
         let cs := Chunks.chunks (2 ^ n_final) terminate in
         map_res (fun '(i, coset) =>
           if negb (length coset =? 2 ^ n_final)%nat then Panic
           else of_opt (fold_chunk ts (n_final + rs_log_inv_rate code) i coset final_challenges))
           (combine (seq 0 (length cs)) cs)
       else
         let cs := Chunks.chunks (2 ^ (rs_log_dim code + fp_log_batch p)) terminate in
         map_res (fun '(i, chunk) =>
           of_opt (fold_interleaved_chunk 0 ts (rs_log_len code) (fp_log_batch p) i chunk (v_tensor v)
                     (v_challenges v) (repeat 0 (2 ^ rs_log_dim code))))
           (combine (seq 0 (length cs)) cs));
    match repetition with
    | [] => Panic
    | final_value :: rest => if forallb (fun x => feqb x final_value) rest then Ok final_value else Err
    end.

  (** verify_coset_opening (370-396) *)
  Definition verify_coset_opening (coset_index log_coset_size layer_depth tree_depth : nat) (layer : list D)
      (tape : list byte) : res (list F * list byte) :=
    try (values, tape1) <- read_scalars (2 ^ log_coset_size) tape;
    try tape2 <- verify_opening F enc hash osz bsz compress utf8 coset_index values layer_depth tree_depth layer tape1;
    Ok (values, tape2).

  (** verify_query_internal (254-352), the loop of lines 307-349 *)
  Fixpoint query_loop (v : verifier) (ts : list (twiddle F)) (arities : list nat) (layers : list (list D)) (depths : list nat)
      (index log_n_cosets fold_round : nat) (next_value : F) (terminate : list F) (tape : list byte) : res (list byte) :=
    match arities, layers, depths with
    | arity :: arities', layer :: layers', depth :: depths' =>
      let coset_index := Nat.shiftr index arity in
      try log_n_cosets' <- sub_or_panic log_n_cosets arity;
      try (values, tape1) <- verify_coset_opening coset_index arity depth log_n_cosets' layer tape;
      try x <- of_opt (nth_error values (index mod 2 ^ arity));
      if negb (feqb next_value x) then Err
      else
        try log_len <- sub_or_panic (rs_log_len (fp_code (v_params v))) fold_round;
        try challenges <- slice_of (v_challenges v) fold_round arity;
        try next <- of_opt (fold_chunk ts log_len coset_index values challenges);
        query_loop v ts arities' layers' depths' coset_index log_n_cosets' (fold_round + arity) next terminate tape1
    | _, _, _ =>
      try x <- of_opt (nth_error terminate index);
      if feqb next_value x then Ok tape else Err
    end.

  (** 254-306; [scratch] is the scratch buffer *)
  Definition verify_query (v : verifier) (ts : list (twiddle F)) (terminate : list F) (layers : list (list D))
      (scratch : list F) (index : nat) (tape : list byte) : res (list byte) :=
    let p := v_params v in
    match fp_arities p with
    | [] => Ok tape
    | first_arity :: arities =>
      match layers, layer_depths p with
      | layer :: layers', depth :: depths' =>
        try log_coset_size <- sub_or_panic first_arity (fp_log_batch p);
        try (values, tape1) <- verify_coset_opening index first_arity depth (index_bits p) layer tape;
        try challenges <- slice_of (v_challenges v) 0 log_coset_size;
        try next <- of_opt (fold_interleaved_chunk 0 ts (rs_log_len (fp_code p)) (fp_log_batch p) index values
                              (v_tensor v) challenges scratch);
        query_loop v ts arities layers' depths' index (index_bits p) log_coset_size next terminate tape1
      | _, _ => Panic
      end
    end.

  (** create_scratch_buffer (355-365) *)
  Definition scratch_len (p : fri_params F) : nat := 2 * 2 ^ list_max (fp_arities p).

  (** 118-120 *)
  Fixpoint read_layers (depths : list nat) (tape : list byte) : res (list (list D) * list byte) :=
    match depths with
    | [] => Ok ([], tape)
    | d :: ds =>
      try (layer, tape1) <- read_digests osz utf8 (2 ^ d) tape;
      try (layers, tape2) <- read_layers ds tape1;
      Ok (layer :: layers, tape2)
    end.
  (** 121-129 *)
  Fixpoint verify_layers (commitments : list D) (depths : list nat) (layers : list (list D)) : res unit :=
    match commitments, depths, layers with
    | c :: cs, d :: ds, l :: ls => try _ <- verify_layer compress c d l; verify_layers cs ds ls
    | _, _, _ => Ok tt
    end.
  (** 133-144.  What a query leaves in the scratch buffer for the next one is not tracked: [stale] gives
      its contents before each query. *)
  Fixpoint verify_queries (v : verifier) (ts : list (twiddle F)) (terminate : list F) (layers : list (list D))
      (stale : nat -> list F) (k : nat) (indices : list nat) (tape : list byte) : res (list byte) :=
    match indices with
    | [] => Ok tape
    | i :: is =>
      try tape1 <- verify_query v ts terminate layers (stale k) i tape;
      verify_queries v ts terminate layers stale (S k) is tape1
    end.

  (** FRIVerifier::verify (99-147): the final value and what is left of the tape *)
  Definition verify (v : verifier) (stale : nat -> list F) (indices : list nat) (tape : list byte) : res (F * list byte) :=
    let p := v_params v in
    try ts <- otf_generate (rs_subspace (fp_code p));
    try (terminate, tape1) <- read_scalars (2 ^ (n_final_challenges p + rs_log_inv_rate (fp_code p))) tape;
    try final_value <- verify_last_oracle v ts terminate;
    try (layers, tape2) <- read_layers (layer_depths p) tape1;
    try _ <- verify_layers (v_commitment v :: v_rounds v) (layer_depths p) layers;
    try tape3 <- verify_queries v ts terminate layers stale 0 indices tape2;
    Ok (final_value, tape3).

  (** ** Prover *)
  (** to_par_scalar_big_chunks and to_par_scalar_small_chunks (prove.rs 42-73) *)
  Definition big_chunks (lw size : nat) (packed : list (list F)) : list (list F) :=
    map (@concat F) (Chunks.chunks (size / 2 ^ lw) packed).
  Definition small_chunks (lw size : nat) (packed : list (list F)) : list (list F) :=
    map (fun k => let start := (k * size)%nat in
                  firstn size (skipn (start mod 2 ^ lw) (nth (start / 2 ^ lw) packed [])))
        (seq 0 (length packed * 2 ^ lw / size)).

  (** commit_interleaved (84-110) and commit_interleaved_with (120-197), the closure copying [message].
      The codeword is encoded as a batch of extension field elements: encode_ext_batch_inplace views each of
      them as a row of subfield elements, on which the transform acts in the same way.  Lines 164-189
      with [lw] = P::LOG_WIDTH. *)
  Definition commit_interleaved (lw : nat) (ts : list (twiddle F)) (p : fri_params F) (sched : nat -> list nat)
      (message : list (list F)) : res (D * tree * list (list F)) :=
    let code := fp_code p in
    let log_elems := (rs_log_dim code + fp_log_batch p)%nat in
    if negb (length message * 2 ^ lw =? rs_dim code * 2 ^ fp_log_batch p)%nat then Err
    else if (log_elems <? lw)%nat then Panic
    else
      let len := (2 ^ (log_elems - lw + rs_log_inv_rate code))%nat in
      let buffer := message ++ repeat (repeat 0 (2 ^ lw)) (len - length message) in
      try encoded <- encode_batch_inplace lw ts code buffer (fp_log_batch p);
      let coset_log_len := match fp_arities p with a :: _ => a | [] => log_elems end in
      try log_len <- sub_or_panic (fp_log_len p) coset_log_len;
      let cs := if (lw <? coset_log_len)%nat then big_chunks lw (2 ^ coset_log_len) encoded
                else small_chunks lw (2 ^ coset_log_len) encoded in
      try (root, _, committed) <- commit_iterated F enc hash bsz compress sched cs log_len;
      Ok (root, committed, encoded).

  (** FRIFolder (219-238); the codeword is flattened *)
  Record folder := mkFolder {
    fo_params : fri_params F;
    fo_codeword : list F;
    fo_committed : tree;
    fo_rounds : list (list F * tree);
    fo_curr_round : nat;
    fo_next_commit : option nat;
    fo_pending : list F }.

  (** FRIFolder::new (252-279) *)
  Definition folder_new (p : fri_params F) (codeword : list F) (committed : tree) : res folder :=
    if (length codeword <? 2 ^ fp_log_len p)%nat then Err
    else Ok (mkFolder p codeword committed [] 0 (hd_error (fp_arities p)) []).

  (** The compute layer's fri_fold: log_len, log_batch_size, challenges, data_in, data_out *)
  Variable fri_fold : nat -> nat -> list F -> list F -> list F -> res (list F).

  (** execute_fold_round (309-433; freshly allocated device memory is taken to hold zeros, it is
      overwritten by the fold): the new state and the commitment, if any *)
  Definition execute_fold_round (sched : nat -> nat -> list nat) (f : folder) (challenge : F) : res (folder * option D) :=
    let p := fo_params f in
    let pending := fo_pending f ++ [challenge] in
    let curr_round := S (fo_curr_round f) in
    let is_commitment_round := match fo_next_commit f with Some r => (r =? curr_round)%nat | None => false end in
    if negb is_commitment_round then
      Ok (mkFolder p (fo_codeword f) (fo_committed f) (fo_rounds f) curr_round (fo_next_commit f) pending, None)
    else
      try folded <-
        (match rev (fo_rounds f) with
         | (prev, _) :: _ =>
           if negb (is_power_of_two (length prev)) then Panic
           else fri_fold (Nat.log2 (length prev)) 0 pending prev (repeat 0 (length prev / 2 ^ length pending))
         | [] =>
           try k <- sub_or_panic (length pending) (fp_log_batch p);
           try out_log <- sub_or_panic (rs_log_len (fp_code p)) k;
           fri_fold (rs_log_len (fp_code p)) (fp_log_batch p) pending (fo_codeword f) (repeat 0 (2 ^ out_log))
         end);
      let coset_size := match nth_error (fp_arities p) (length (fo_rounds f) + 1) with
                        | Some a => (2 ^ a)%nat | None => (2 ^ n_final_challenges p)%nat end in
      try (root, _, committed) <- commit F enc hash bsz compress (sched (length (fo_rounds f))) folded coset_size;
      let rounds := fo_rounds f ++ [(folded, committed)] in
      let next := match fo_next_commit f, nth_error (fp_arities p) (length rounds) with
                  | Some r, Some a => Some (r + a)%nat
                  | _, _ => None
                  end in
      Ok (mkFolder p (fo_codeword f) (fo_committed f) rounds curr_round next [], Some root).

  (** The caller's loop (e.g. crates/core/src/piop/prove.rs): the state and the commitments sent *)
  Fixpoint fold_all (sched : nat -> nat -> list nat) (f : folder) (challenges : list F) : res (folder * list D) :=
    match challenges with
    | [] => Ok (f, [])
    | c :: cs =>
      try (f1, out) <- execute_fold_round sched f c;
      try (f2, outs) <- fold_all sched f1 cs;
      Ok (f2, match out with Some d => d :: outs | None => outs end)
    end.

  (** prove_coset_opening (613-637) *)
  Definition prove_coset_opening (codeword : list F) (committed : tree) (coset_index log_coset_size layer_depth : nat)
    : res (list byte) :=
    let values := firstn (2 ^ log_coset_size) (skipn (Nat.shiftl coset_index log_coset_size) codeword) in
    try opening <- prove_opening committed layer_depth coset_index;
    Ok (concat (map enc values) ++ opening).

  (** prove_query (545-595) *)
  Fixpoint prove_query_loop (rounds : list (list F * tree)) (arities depths : list nat) (index : nat) : res (list byte) :=
    match rounds, arities, depths with
    | (codeword, committed) :: rounds', arity :: arities', depth :: depths' =>
      let index' := Nat.shiftr index arity in
      try b <- prove_coset_opening codeword committed index' arity depth;
      try bs <- prove_query_loop rounds' arities' depths' index';
      Ok (b ++ bs)
    | _, _, _ => Ok []
    end.
  Definition prove_query (p : fri_params F) (codeword : list F) (committed : tree) (rounds : list (list F * tree)) (index : nat)
    : res (list byte) :=
    match fp_arities p, layer_depths p with
    | arity :: arities, depth :: depths =>
      try b <- prove_coset_opening codeword committed index arity depth;
      try bs <- prove_query_loop rounds arities depths index;
      Ok (b ++ bs)
    | _, _ => Ok []
    end.

  (** vcs_optimal_layers (597-610) *)
  Fixpoint optimal_layers (committed : list tree) (depths : list nat) : res (list (list D)) :=
    match committed, depths with
    | t :: ts, d :: ds => try l <- layer t d; try ls <- optimal_layers ts ds; Ok (l :: ls)
    | _, _ => Ok []
    end.

  (** finalize (444-481) and finish_proof (483-507): the bytes appended to the decommitment *)
  Definition finish_proof (f : folder) (indices : list nat) : res (list byte) :=
    let p := fo_params f in
    if negb (fo_curr_round f =? n_fold_rounds p)%nat then Err
    else
      let terminate := match rev (fo_rounds f) with (c, _) :: _ => c | [] => fo_codeword f end in
      try layers <- optimal_layers (fo_committed f :: map snd (fo_rounds f)) (layer_depths p);
      try queries <- map_res (prove_query p (fo_codeword f) (fo_committed f) (fo_rounds f)) indices;
      Ok (concat (map enc terminate) ++ concat (map (@concat byte) layers) ++ concat queries).
End Fri.
