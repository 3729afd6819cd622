(** Model of the prover and verifier transcripts (crates/core/src/transcript/mod.rs), over the challenger
    of ChallengerModel and the serialization of SerModel.

    A sequence of operations is a list of [op]; the verifier runs the corresponding list of [vop].
    `write_slice`, `write_scalar_slice`, `write_packed`, `read_vec`, ... (lines 297-343, 363-418) loop over single
    writes and reads, so they are sequences of operations here.  `write_bytes`/`read_bytes` of n bytes is
    an operation at type [TArr n] (with error NotEnoughBytes, 303-310). *)
Require Import Coq.NArith.NArith Coq.Arith.Arith Coq.Lists.List Coq.Bool.Bool Lia.
Require Import Verif.Base.Sums Verif.Base.Lists Verif.Transcript.SerModel Verif.Transcript.ChallengerModel.
Import ListNotations.
Local Close Scope N_scope. Local Open Scope nat_scope.

Section Transcript.
  Variable hash : list byte -> list byte.
  Variable osz bsz : nat.
  Variable utf8 : list byte -> bool.
  Variable room : nat.     (* remaining_mut of the buffers, usize::MAX in practice *)

  Inductive op : Type :=
  | OMsg (t : ty) (v : val t)        (* message().write(&v) *)
  | OAdvice (t : ty) (v : val t)     (* decommitment().write(&v) *)
  | OObserve (t : ty) (v : val t)    (* observe().write(&v) *)
  | OSample (n : nat)                (* sample of a field with an n-byte encoding *)
  | OBits (bits : nat)               (* sample_bits(bits) *)
  | ODebug (msg : list byte).        (* message().write_debug(msg) *)

  Inductive vop : Type :=
  | VMsg (t : ty)
  | VAdvice (t : ty)
  | VObserve (t : ty) (v : val t)
  | VSample (n : nat)
  | VBits (bits : nat)
  | VDebug (msg : list byte).

  (** What a party learns from an operation: a value sent or received, sampled bytes, sampled bits. *)
  Inductive item : Type :=
  | IVal (t : ty) (v : val t)
  | IBytes (b : list byte)
  | IBits (x : N).

  (** FiatShamirBuf's provided put_slice over its chunk_mut and advance_mut (75-99), and the advances
      (65-73) of a reader: the bytes are observed piece by piece.  How many bytes a piece may have is
      decided by the allocator (BytesMut::chunk_mut) and by how the value's serializer cuts its puts;
      [alloc] is any such behaviour, given by the number of bytes already on the tape. *)
  Fixpoint observe_pieces (alloc : nat -> nat) (fuel pos : nat) (c : chal) (bs : list byte) : res chal :=
    match bs with
    | [] => Ok c
    | _ =>
      match fuel with
      | O => Panic
      | S fuel =>
        let cnt := Nat.min (alloc pos) (length bs) in
        try c1 <- of_opt (observe bsz c (firstn cnt bs));
        observe_pieces alloc fuel (pos + cnt) c1 (skipn cnt bs)
      end
    end.

  (** `sample` (432-453): the encoding of a field element read from the sampler. *)
  Definition t_sample (c : chal) (n : nat) : res (list byte * chal) := of_opt (sample hash osz c n).
  (** sample_bits_reader (455-472) *)
  Definition sample_bits (c : chal) (bits : nat) : res (N * chal) :=
    let bits := Nat.min bits 32 in
    try (bs, c1) <- t_sample c 4;
    let mask := (if (bits <? 32)%nat then 2 ^ N.of_nat bits - 1 else 2 ^ 32 - 1)%N in
    Ok (N.land mask (of_le bs), c1).

  (** ProverTranscript (31-36): the tape written so far and the challenger. *)
  Definition pstate : Type := (list byte * chal)%type.
  Definition prover_new : pstate := ([], challenger_default hash).

  (** TranscriptWriter::write (363-369) and write_debug (409-413) on the three writers (169-207). *)
  Definition prover_step (debug : bool) (alloc : nat -> nat) (st : pstate) (o : op)
    : res (list item * pstate) :=
    let '(tape, c) := st in
    match o with
    | OMsg t v =>
      try bs <- expect (ser t v room);
      try c1 <- observe_pieces alloc (length bs) (length tape) c bs;
      Ok ([IVal t v], (tape ++ bs, c1))
    | OAdvice t v =>
      try bs <- expect (ser t v room);
      Ok ([IVal t v], (tape ++ bs, c))
    | OObserve t v =>
      try bs <- expect (ser t v room);
      try c1 <- of_opt (observe bsz c bs);
      Ok ([], (tape, c1))
    | OSample n => try (bs, c1) <- t_sample c n; Ok ([IBytes bs], (tape, c1))
    | OBits b => try (x, c1) <- sample_bits c b; Ok ([IBits x], (tape, c1))
    | ODebug msg =>
      if debug then
        try c1 <- observe_pieces alloc (length msg) (length tape) c msg;
        Ok ([], (tape ++ msg, c1))
      else Ok ([], (tape, c))
    end.

  Fixpoint prover_run (debug : bool) (alloc : nat -> nat) (st : pstate) (ops : list op)
    : res (list item * pstate) :=
    match ops with
    | [] => Ok ([], st)
    | o :: r =>
      try (items, st1) <- prover_step debug alloc st o;
      try (rest, st2) <- prover_run debug alloc st1 r;
      Ok (items ++ rest, st2)
    end.

  (** ProverTranscript::finalize (126-154) without the debugging dump. *)
  Definition prover_finalize (st : pstate) : list byte := fst st.

  (** VerifierTranscript (43-47): the tape left to read and the challenger. *)
  Definition vstate : Type := (list byte * chal)%type.
  Definition verifier_new (tape : list byte) : vstate := (tape, challenger_default hash).

  (** The bytes of [buf] that a read consumed, given what it left. *)
  Definition consumed (buf rest : list byte) : list byte := firstn (length buf - length rest) buf.

  (** TranscriptReader::read (292-295) and read_debug (345-352) on the two readers, and observe (235-243). *)
  Definition verifier_step (debug : bool) (alloc : nat -> nat) (st : vstate) (o : vop)
    : res (list item * vstate) :=
    let '(tape, c) := st in
    match o with
    | VMsg t =>
      try (v, rest) <- de utf8 t tape;
      let bs := consumed tape rest in
      try c1 <- observe_pieces alloc (length bs) (length tape) c bs;
      Ok ([IVal t v], (rest, c1))
    | VAdvice t =>
      try (v, rest) <- de utf8 t tape;
      Ok ([IVal t v], (rest, c))
    | VObserve t v =>
      try bs <- expect (ser t v room);
      try c1 <- of_opt (observe bsz c bs);
      Ok ([], (tape, c1))
    | VSample n => try (bs, c1) <- t_sample c n; Ok ([IBytes bs], (tape, c1))
    | VBits b => try (x, c1) <- sample_bits c b; Ok ([IBits x], (tape, c1))
    | VDebug msg =>
      if debug then
        try (bs, rest) <- expect (take (length msg) tape);
        try c1 <- observe_pieces alloc (length msg) (length tape) c bs;
        if list_eq_dec N.eq_dec msg bs then Ok ([], (rest, c1)) else Panic
      else Ok ([], (tape, c))
    end.

  Fixpoint verifier_run (debug : bool) (alloc : nat -> nat) (st : vstate) (ops : list vop)
    : res (list item * vstate) :=
    match ops with
    | [] => Ok ([], st)
    | o :: r =>
      try (items, st1) <- verifier_step debug alloc st o;
      try (rest, st2) <- verifier_run debug alloc st1 r;
      Ok (items ++ rest, st2)
    end.

  (** VerifierTranscript::finalize (222-229) *)
  Definition verifier_finalize (st : vstate) : res unit :=
    match fst st with [] => Ok tt | _ => Err end.

  (** ** Specification *)

  (** The verifier that mirrors a prover. *)
  Definition mirror (o : op) : vop :=
    match o with
    | OMsg t v => VMsg t
    | OAdvice t v => VAdvice t
    | OObserve t v => VObserve t v
    | OSample n => VSample n
    | OBits b => VBits b
    | ODebug m => VDebug m
    end.

  Definition op_ok (o : op) : Prop :=
    match o with
    | OMsg t v | OAdvice t v => ty_ok t /\ wf utf8 t v
    | _ => True
    end.

  (** The uses of the challenger that a verifier makes when reading a tape: what a message read
      consumed is observed, advice is not. *)
  Fixpoint verifier_events (tape : list byte) (ops : list vop) : list event :=
    match ops with
    | [] => []
    | VMsg t :: r =>
      match de utf8 t tape with
      | Ok (_, rest) =>
        match consumed tape rest with [] => [] | bs => [EObserve bs] end ++ verifier_events rest r
      | _ => []
      end
    | VAdvice t :: r =>
      match de utf8 t tape with Ok (_, rest) => verifier_events rest r | _ => [] end
    | VObserve t v :: r =>
      match ser t v room with Ok bs => [EObserve bs] | _ => [] end ++ verifier_events tape r
    | VSample n :: r => ESample n :: verifier_events tape r
    | VBits _ :: r => ESample 4 :: verifier_events tape r
    | VDebug _ :: r => verifier_events tape r
    end.

  (** The sampled bytes among the items learned (sample_bits keeps only some bits of its four bytes). *)
  Fixpoint challenges (ops : list vop) (outs : list (list byte)) : list item :=
    match ops, outs with
    | VSample _ :: r, o :: outs => IBytes o :: challenges r outs
    | VBits b :: r, o :: outs => IBits (of_le o mod 2 ^ N.of_nat (Nat.min b 32))%N :: challenges r outs
    | VSample _ :: _, [] | VBits _ :: _, [] => []
    | _ :: r, _ => challenges r outs
    | [], _ => []
    end.
  Definition is_challenge (i : item) : bool := match i with IVal _ _ => false | _ => true end.
End Transcript.
