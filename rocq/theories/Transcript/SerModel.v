(** Model of the byte serialization layer (crates/utils/src/serialization.rs, the derive macros of
    crates/macros/src/lib.rs, and the small integers of crates/field/src/underlier/small_uint.rs).

    Bytes are numbers below 256.  A write buffer is represented by the bytes appended to it together
    with the number of bytes it can still take ([remaining_mut]); a read buffer by the bytes still in
    it.  Serialization of a type is modelled for every type that can be built from the ones below,
    as the Rust implementations are generic in their components. *)
Require Import Coq.NArith.NArith Coq.Arith.Arith Coq.Lists.List Coq.Bool.Bool Lia.
Require Import Verif.Base.Sums.
Import ListNotations.
Local Close Scope N_scope. Local Open Scope nat_scope.

Definition byte := N.

(** The types that implement SerializeBytes and DeserializeBytes.
    - [TUInt k]: u8, u16, u32, u64, u128, for k = 1, 2, 4, 8, 16 bytes (serialization.rs 93-211); also the
      canonical tower fields of at least 8 bits, which serialize their underlier
      (crates/field/src/binary_field.rs 770-803);
    - [TUsize] (67-91), [TBool] (213-231), [TUnit] = PhantomData (233-253), [TStr] (255-297);
    - [TSmall n] = SmallU<n> (small_uint.rs 246-262); also BinaryField1b, 2b, 4b;
    - [TOid] = OracleId (crates/core/src/oracle/oracle_id.rs 35-55);
    - [TArr n] = GenericArray<u8, n>, that is every hash digest (392-415);
    - [TVec] (299-333), [TOpt] (335-368), [TPair] (370-390);
    - [TEnum ts]: a derived enum (macros/src/lib.rs 34-70, 194-246) with one entry per variant, the
      fields of a variant being a tuple.  A derived struct (28-33, 185-193) is a tuple of its fields. *)
Inductive ty : Type :=
| TUInt (k : nat)
| TUsize
| TBool
| TUnit
| TStr
| TSmall (n : nat)
| TOid
| TArr (n : nat)
| TVec (t : ty)
| TOpt (t : ty)
| TPair (t u : ty)
| TEnum (ts : list ty).

(** The values of a type.  A value of an enum is the choice of a variant and the value of its fields. *)
Fixpoint val (t : ty) : Type :=
  match t with
  | TUInt _ | TUsize | TSmall _ | TOid => N
  | TBool => bool
  | TUnit => unit
  | TStr | TArr _ => list byte
  | TVec t => list (val t)
  | TOpt t => option (val t)
  | TPair t u => (val t * val u)%type
  | TEnum ts =>
    (fix variants (ts : list ty) : Type := match ts with [] => Empty_set | t :: r => (val t + variants r)%type end) ts
  end.

(** u16::to_le_bytes and friends: k bytes, least significant first. *)
Fixpoint le_bytes (k : nat) (x : N) : list byte :=
  match k with O => [] | S k' => (x mod 256)%N :: le_bytes k' (x / 256)%N end.
(** u16::from_le_bytes and friends. *)
Fixpoint of_le (bs : list byte) : N :=
  match bs with [] => 0%N | b :: r => (b + 256 * of_le r)%N end.

(** assert_enough_space_for (417-426) followed by put_slice. *)
Definition put (bs : list byte) (room : nat) : res (list byte) :=
  if room <? length bs then Err else Ok bs.

(** assert_enough_data_for (428-434) followed by copy_to_slice of n bytes. *)
Definition take (n : nat) (buf : list byte) : res (list byte * list byte) :=
  if length buf <? n then Err else Ok (firstn n buf, skipn n buf).

(** Two writes to the same buffer, the first failure being propagated by `?`. *)
Definition and_then (w1 w2 : nat -> res (list byte)) (room : nat) : res (list byte) :=
  try b1 <- w1 room;
  try b2 <- w2 (room - length b1);
  Ok (b1 ++ b2).

Section Ser.
  (** The validity check of String::from_utf8 (serialization.rs 295), left abstract. *)
  Variable utf8 : list byte -> bool.

  Definition ser_uint (k : nat) (x : N) : nat -> res (list byte) := put (le_bytes k x).
  (** serialization.rs 67-77: usize is written as u32 and refused if it does not fit. *)
  Definition ser_usize (x : N) : nat -> res (list byte) :=
    if (x <? 2 ^ 32)%N then ser_uint 4 x else fun _ => Err.

  Fixpoint ser_items {A} (ser : A -> nat -> res (list byte)) (l : list A) : nat -> res (list byte) :=
    match l with
    | [] => fun _ => Ok []
    | x :: r => and_then (ser x) (ser_items ser r)
    end.

  (** SerializeBytes::serialize. *)
  Fixpoint ser (t : ty) : val t -> nat -> res (list byte) :=
    match t with
    | TUInt k => fun x => ser_uint k x
    | TUsize => fun x => ser_usize x
    | TBool => fun b => ser_uint 1 (if b : bool then 1 else 0)%N
    | TUnit => fun _ _ => Ok []
    | TStr => fun s => and_then (ser_usize (N.of_nat (length s))) (put s)
    | TSmall _ => fun x => ser_uint 1 x
    | TOid => fun x => ser_uint 4 (x mod 2 ^ 32)%N      (* `self.0 as u32` *)
    | TArr _ => fun s => put s
    | TVec t => fun l => and_then (ser_usize (N.of_nat (length l))) (ser_items (ser t) l)
    | TOpt t => fun o =>
        match o with
        | Some x => and_then (ser_uint 1 1%N) (ser t x)
        | None => ser_uint 1 0%N
        end
    | TPair t u => fun p => and_then (ser t (fst p)) (ser u (snd p))
    | TEnum ts =>
        (fix ser_variant (ts : list ty) (i : N) : val (TEnum ts) -> nat -> res (list byte) :=
           match ts return val (TEnum ts) -> nat -> res (list byte) with
           | [] => fun e => match e with end
           | t :: r => fun v =>
             match v with
             | inl x => and_then (ser_uint 1 (i mod 256)%N) (ser t x)      (* `i as u8` *)
             | inr y => ser_variant r (i + 1)%N y
             end
           end) ts 0%N
    end.

  Definition de_uint (k : nat) (buf : list byte) : res (N * list byte) :=
    try (bs, rest) <- take k buf; Ok (of_le bs, rest).
  (** serialization.rs 79-91 *)
  Definition de_usize (buf : list byte) : res (N * list byte) := de_uint 4 buf.

  (** `(0..len).map(..).collect::<Result<Vec<_>, _>>()` (329-332): stops at the first error. *)
  Fixpoint de_items {A} (de : list byte -> res (A * list byte)) (n : nat) (buf : list byte)
    : res (list A * list byte) :=
    match n with
    | O => Ok ([], buf)
    | S n' =>
      try (x, buf1) <- de buf;
      try (l, buf2) <- de_items de n' buf1;
      Ok (x :: l, buf2)
    end.

  (** DeserializeBytes::deserialize. *)
  Fixpoint de (t : ty) : list byte -> res (val t * list byte) :=
    match t return list byte -> res (val t * list byte) with
    | TUInt k => de_uint k
    | TUsize => de_usize
    | TBool => fun buf => try (x, rest) <- de_uint 1 buf; Ok (negb (x =? 0)%N, rest)
    | TUnit => fun buf => Ok (tt, buf)
    | TStr => fun buf =>
        try (n, buf1) <- de_usize buf;
        try (s, buf2) <- take (N.to_nat n) buf1;
        if utf8 s then Ok (s, buf2) else Err
    | TSmall n => fun buf => try (x, rest) <- de_uint 1 buf; Ok ((x mod 2 ^ N.of_nat n)%N, rest)
    | TOid => de_uint 4
    | TArr n => fun buf => take n buf
    | TVec t => fun buf => try (n, buf1) <- de_usize buf; de_items (de t) (N.to_nat n) buf1
    | TOpt t => fun buf =>
        try (b, buf1) <- de_uint 1 buf;
        if negb (b =? 0)%N
        then try (x, buf2) <- de t buf1; Ok (Some x, buf2)
        else Ok (None, buf1)
    | TPair t u => fun buf =>
        try (x, buf1) <- de t buf;
        try (y, buf2) <- de u buf1;
        Ok ((x, y), buf2)
    | TEnum ts => fun buf =>
        try (idx, buf1) <- de_uint 1 buf;
        (fix de_variant (ts : list ty) (i : N) : res (val (TEnum ts) * list byte) :=
           match ts return res (val (TEnum ts) * list byte) with
           | [] => Err                                         (* UnknownEnumVariant *)
           | t :: r =>
             if (idx =? i mod 256)%N
             then try (x, buf2) <- de t buf1; Ok (inl x, buf2)
             else try (y, buf2) <- de_variant r (i + 1)%N; Ok (inr y, buf2)
           end) ts 0%N
    end.
End Ser.

(** Values that exist in Rust: integers in range, arrays of the right length, strings in UTF-8. *)
Section Wf.
  Variable utf8 : list byte -> bool.
  Definition bytes_ok (l : list byte) : Prop := Forall (fun b => (b < 256)%N) l.

  Fixpoint wf (t : ty) : val t -> Prop :=
    match t return val t -> Prop with
    | TUInt k => fun x => (x < 256 ^ N.of_nat k)%N
    | TUsize => fun x => (x < 2 ^ 64)%N
    | TBool | TUnit => fun _ => True
    | TStr => fun s => bytes_ok s /\ utf8 s = true
    | TSmall n => fun x => (x < 2 ^ N.of_nat n)%N
    | TOid => fun x => (x < 2 ^ 32)%N         (* an index into an oracle set; see [oracle_id_refuted] *)
    | TArr n => fun s => bytes_ok s /\ length s = n
    | TVec t => fun l => Forall (wf t) l
    | TOpt t => fun o => match o with Some x => wf t x | None => True end
    | TPair t u => fun p => wf t (fst p) /\ wf u (snd p)
    | TEnum ts =>
        (fix wf_variant (ts : list ty) : val (TEnum ts) -> Prop :=
           match ts return val (TEnum ts) -> Prop with
           | [] => fun _ => True
           | t :: r => fun v => match v with inl x => wf t x | inr y => wf_variant r y end
           end) ts
    end.

  (** The types that exist in Rust: SmallU has at most 8 bits, an enum at most 256 variants. *)
  Fixpoint ty_ok (t : ty) : Prop :=
    match t with
    | TSmall n => n <= 8
    | TVec t | TOpt t => ty_ok t
    | TPair t u => ty_ok t /\ ty_ok u
    | TEnum ts =>
        length ts <= 256 /\ (fix all ts := match ts with [] => True | t :: r => ty_ok t /\ all r end) ts
    | _ => True
    end.
End Wf.
