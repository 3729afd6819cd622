(** Model of the binary Merkle tree (crates/core/src/merkle_tree/{binary_merkle_tree,prover,scheme}.rs).

    Digests are byte strings of length [osz]; the compression function is arbitrary.  Elements are
    of any type with a byte encoding [enc] (their SerializeBytes output).  Freshly allocated
    memory is a list of [None]; treating an uninitialised cell as initialised is undefined behaviour
    and modelled as [Panic].  Depths are assumed below the word size, so `1 << depth` does not overflow.
    A rayon loop over tasks that each write one cell is given by the order in which the writes
    happen. *)
Require Import Coq.NArith.NArith Coq.Arith.Arith Coq.Lists.List Coq.Bool.Bool Coq.Sorting.Permutation.
Require Import Verif.Base.Sums Verif.Base.Lists Verif.Base.Chunks.
Require Import Verif.Transcript.SerModel Verif.Transcript.ChallengerModel.
Import ListNotations.
Local Close Scope N_scope. Local Open Scope nat_scope.

Section Merkle.
  Variable V : Type.
  Variable enc : V -> list byte.
  Variable hash : list byte -> list byte.
  Variable osz bsz : nat.
  Variable compress : list byte -> list byte -> list byte.
  Variable utf8 : list byte -> bool.
  Notation D := (list byte).

  (** hash_serialize::<F, H> (crates/hash/src/serialization.rs 67-83), and Serializable for an iterator of
      field elements (crates/hash/src/multi_digest.rs 68-78) into a HashBuffer. *)
  Definition hash_leaf (vs : list V) : option D := hash_serialize hash bsz (map enc vs).

  (** BinaryMerkleTree (binary_merkle_tree.rs 20-25) *)
  Record tree : Type := Tree { log_len : nat; inner_nodes : list (option D) }.

  (** A parallel loop in which task [i] writes cell [i]. *)
  Definition write_cells (order : list nat) (task : nat -> option D) (cells : list (option D)) : list (option D) :=
    fold_left (fun m i => match task i with Some d => upd m i (Some d) | None => m end) order cells.

  (** compress_layer (155-170) *)
  Definition compress_task (prev : list D) (i : nat) : option D :=
    match nth_error prev (2 * i), nth_error prev (2 * i + 1) with
    | Some a, Some b => Some (compress a b)
    | _, _ => None
    end.
  Definition compress_layer (order : list nat) (prev : list D) (next : list (option D)) : list (option D) :=
    write_cells order (compress_task prev) next.

  (** slice_assume_init_mut (crates/utils/src/mem.rs) *)
  Definition assume_init (cells : list (option D)) : res (list D) := of_opt (omap (fun c => c) cells).

  (** The loop of internal_build (75-86) over the layer numbers [is]; returns the memory after [prev]. *)
  Fixpoint build_layers (sched : nat -> list nat) (n : nat) (is : list nat) (prev remaining : list (option D))
    : res (list (option D)) :=
    match is with
    | [] => Ok remaining
    | i :: is =>
      let w := 2 ^ (n - i) in
      if length remaining <? w then Panic
      else
        try digests <- assume_init prev;
        let next := compress_layer (sched i) digests (firstn w remaining) in
        try rest <- build_layers sched n is next (skipn w remaining);
        Ok (next ++ rest)
    end.

  (** internal_build (56-99) *)
  Definition internal_build (sched : nat -> list nat)
    (hash_leaves : list (option D) -> res (list (option D))) (n : nat) : res tree :=
    let total_length := 2 ^ (n + 1) - 1 in
    let memory := repeat None total_length in
    try leaves <- hash_leaves (firstn (2 ^ n) memory);
    try rest <- build_layers sched n (seq 1 n) leaves (skipn (2 ^ n) memory);
    Ok (Tree n (leaves ++ rest)).

  (** hash_iterated (197-211) with ParallelDigest for a Digest (multi_digest.rs 148-174): the chunks are zipped
      with the cells. *)
  Definition leaf_task (chs : list (list V)) (i : nat) : option D :=
    match nth_error chs i with Some vs => hash_leaf vs | None => None end.
  Definition hash_iterated (order : list nat) (chs : list (list V)) (cells : list (option D))
    : res (list (option D)) := Ok (write_cells order (leaf_task chs) cells).

  (** hash_interleaved (177-195) *)
  Definition hash_interleaved (order : list nat) (elems : list V) (cells : list (option D))
    : res (list (option D)) :=
    if negb (length elems mod length cells =? 0) then Err
    else
      let size := length elems / length cells in
      if size =? 0 then Panic
      else hash_iterated order (chunks size elems) cells.

  Definition is_power_of_two (n : nat) : bool := negb (n =? 0) && (2 ^ Nat.log2 n =? n).

  (** build (27-54) *)
  Definition build (sched : nat -> list nat) (elements : list V) (batch_size : nat) : res tree :=
    if batch_size =? 0 then Panic
    else if negb (length elements mod batch_size =? 0) then Err
    else
      let len := length elements / batch_size in
      if negb (is_power_of_two len) then Err
      else internal_build sched (hash_interleaved (sched 0) elements) (Nat.log2 len).

  (** build_from_iterator (101-118) *)
  Definition build_from_iterator (sched : nat -> list nat) (chs : list (list V)) (n : nat) : res tree :=
    internal_build sched (hash_iterated (sched 0) chs) n.

  (** BinaryMerkleTree::root (121-126) *)
  Definition root (t : tree) : res D :=
    match inner_nodes t with
    | [] => Panic
    | ns => of_opt (last ns None)
    end.

  (** BinaryMerkleTree::layer (128-135) *)
  Definition layer (t : tree) (layer_depth : nat) : res (list D) :=
    if log_len t <? layer_depth then Err
    else
      let len := length (inner_nodes t) in
      if len + 1 <? 2 ^ (layer_depth + 1) then Panic
      else
        let start := len + 1 - 2 ^ (layer_depth + 1) in
        if len <? start + 2 ^ layer_depth then Panic
        else assume_init (firstn (2 ^ layer_depth) (skipn start (inner_nodes t))).

  (** BinaryMerkleTree::branch (140-152) *)
  Definition branch_node (t : tree) (index j : nat) : option D :=
    let node_index := Nat.lor (Nat.shiftl (2 ^ j - 1) (log_len t + 1 - j)) (Nat.lxor (Nat.shiftr index j) 1) in
    match nth_error (inner_nodes t) node_index with Some c => c | None => None end.
  Definition branch (t : tree) (index layer_depth : nat) : res (list D) :=
    if (2 ^ log_len t <=? index) || (log_len t <? layer_depth) then Err
    else of_opt (omap (branch_node t index) (seq 0 (log_len t - layer_depth))).

  (** commit (prover.rs 45-60): root, depth and tree. *)
  Definition commit (sched : nat -> list nat) (data : list V) (batch_size : nat) : res (D * nat * tree) :=
    try t <- build sched data batch_size;
    try r <- root t;
    Ok (r, log_len t, t).
  (** commit_iterated (prover.rs 82-106) *)
  Definition commit_iterated (sched : nat -> list nat) (chs : list (list V)) (n : nat) : res (D * nat * tree) :=
    try t <- build_from_iterator sched chs n;
    try r <- root t;
    Ok (r, log_len t, t).
  (** prove_opening (prover.rs 70-79): the bytes appended to the proof; write_slice (transcript/mod.rs 376-380). *)
  Definition prove_opening (t : tree) (layer_depth index : nat) : res (list byte) :=
    try b <- branch t index layer_depth;
    Ok (concat b).

  (** fold_digests_vector_inplace (scheme.rs 149-168) *)
  Definition fold_step (ds : list D) (i : nat) : option (list D) :=
    do a <- nth_error ds (2 * i);
    do b <- nth_error ds (2 * i + 1);
    Some (upd ds i (compress a b)).
  Fixpoint fold_while (fuel len : nat) (ds : list D) : res (list D) :=
    if len =? 0 then Ok ds
    else
      match fuel with
      | O => Panic
      | S fuel =>
        try ds1 <- of_opt (ofold fold_step (seq 0 len) ds);
        fold_while fuel (len / 2) ds1
      end.
  Definition fold_digests_vector_inplace (ds : list D) : res (list D) :=
    if negb (is_power_of_two (length ds)) then Err
    else fold_while (length ds) (length ds / 2) ds.

  Definition digest_eqb (a b : D) : bool := if list_eq_dec N.eq_dec a b then true else false.

  (** verify_vector (scheme.rs 73-96) *)
  Definition verify_vector (rt : D) (data : list V) (batch_size : nat) : res unit :=
    if batch_size =? 0 then Panic
    else if negb (length data mod batch_size =? 0) then Err
    else
      try digests <- of_opt (omap hash_leaf (chunks batch_size data));
      try ds <- fold_digests_vector_inplace digests;
      try d <- of_opt (nth_error ds 0);
      if digest_eqb d rt then Ok tt else Err.

  (** verify_layer (scheme.rs 98-115) *)
  Definition verify_layer (rt : D) (layer_depth : nat) (layer_digests : list D) : res unit :=
    if negb (2 ^ layer_depth =? length layer_digests) then Err
    else
      try ds <- fold_digests_vector_inplace layer_digests;
      try d <- of_opt (nth_error ds 0);
      if digest_eqb d rt then Ok tt else Err.

  (** TranscriptReader::read_vec (transcript/mod.rs 297-301) of digests. *)
  Fixpoint read_digests (n : nat) (tape : list byte) : res (list D * list byte) :=
    match n with
    | O => Ok ([], tape)
    | S n =>
      try (d, rest) <- de utf8 (TArr osz) tape;
      try (ds, rest2) <- read_digests n rest;
      Ok (d :: ds, rest2)
    end.

  (** verify_opening (scheme.rs 117-147); also returns what is left of the proof. *)
  Fixpoint climb (index : nat) (d : D) (path : list D) : nat * D :=
    match path with
    | [] => (index, d)
    | b :: r =>
      climb (Nat.shiftr index 1) (if Nat.land index 1 =? 0 then compress d b else compress b d) r
    end.
  Definition verify_opening (index : nat) (values : list V) (layer_depth tree_depth : nat)
    (layer_digests : list D) (proof : list byte) : res (list byte) :=
    if negb (2 ^ layer_depth =? length layer_digests) then Err
    else if 2 ^ tree_depth <=? index then Err
    else
      try leaf <- of_opt (hash_leaf values);
      if tree_depth <? layer_depth then Panic
      else
        try (path, rest) <- read_digests (tree_depth - layer_depth) proof;
        let '(i, d) := climb index leaf path in
        try e <- of_opt (nth_error layer_digests i);
        if digest_eqb d e then Ok rest else Err.

  (** optimal_verify_layer (scheme.rs 54-56) and proof_size (58-71) *)
  Definition optimal_verify_layer (n_queries tree_depth : nat) : nat := Nat.min (Nat.log2_up n_queries) tree_depth.
  Definition proof_size (len n_queries layer_depth : nat) : res nat :=
    if negb (is_power_of_two len) then Err
    else
      let n := Nat.log2 len in
      if n <? layer_depth then Err
      else if n - layer_depth <? 1 then Panic
      else Ok (((n - layer_depth - 1) * n_queries + 2 ^ layer_depth) * osz).
End Merkle.
