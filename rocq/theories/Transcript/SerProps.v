(** Properties of serialization (C35, and the malleability findings). *)
Require Import Coq.NArith.NArith Coq.Arith.Arith Coq.Lists.List Coq.Bool.Bool Lia.
Require Import Verif.Base.Sums Verif.Transcript.SerModel Verif.Transcript.SerProofs.
Require Import Verif.Field.TowerModel Verif.Field.AesModel Verif.Field.AesProps.
Import ListNotations.
Local Close Scope N_scope. Local Open Scope nat_scope.

Section Ser.
  Variable utf8 : list byte -> bool.

  (** C35: a value written to any buffer is read back equal, whatever follows it, and the reader
      consumes exactly the bytes written. *)
  Theorem serialize_roundtrip t (v : val t) room b rest : ty_ok t -> wf utf8 t v ->
    ser t v room = Ok b -> de utf8 t (b ++ rest) = Ok (v, rest).
  Proof. intros OK W E. now apply (ser_good utf8 t OK v room b W E). Qed.

  (** C35: a truncated buffer is an error, never a value. *)
  Theorem deserialize_truncated t (v : val t) room p q : ty_ok t -> wf utf8 t v ->
    ser t v room = Ok (p ++ q) -> q <> [] -> de utf8 t p = Err.
  Proof. intros OK W E Q. now apply (ser_good utf8 t OK v room (p ++ q) W E) with q. Qed.

  (** C35: encodings are uniquely decodable: two written values that agree with some continuations
      are the same value, written with the same bytes. *)
  Theorem serialize_injective t (v1 v2 : val t) room1 room2 b1 b2 rest1 rest2 : ty_ok t ->
    wf utf8 t v1 -> wf utf8 t v2 -> ser t v1 room1 = Ok b1 -> ser t v2 room2 = Ok b2 ->
    b1 ++ rest1 = b2 ++ rest2 -> v1 = v2 /\ b1 = b2 /\ rest1 = rest2.
  Proof.
    intros OK W1 W2 E1 E2 E. pose proof (serialize_roundtrip t v1 room1 b1 rest1 OK W1 E1) as R1.
    pose proof (serialize_roundtrip t v2 room2 b2 rest2 OK W2 E2) as R2. rewrite E, R2 in R1.
    apply ok_inj in R1. injection R1 as -> ->. apply app_inv_tail in E. auto.
  Qed.

  (** C35: a write either fails whatever the room (a length that does not fit in 32 bits), or writes
      the same bytes into every buffer that has room for them and fails with every smaller one. *)
  Theorem serialize_room t (v : val t) :
    (forall room, ser t v room = Err) \/
    (exists b, forall room, ser t v room = if room <? length b then Err else Ok b).
  Proof. destruct (ser_sized t v) as [[b H]|H]; [right; exists b; exact H|now left]. Qed.

  (** C35: reading arbitrary (hostile) bytes never panics; a value that is returned is a legal value of
      its type and what is left of the buffer is a suffix of it. *)
  Theorem deserialize_total t buf :
    de utf8 t buf <> Panic /\
    forall v rest, de utf8 t buf = Ok (v, rest) ->
      (exists c, buf = c ++ rest) /\ (bytes_ok buf -> wf utf8 t v).
  Proof.
    pose proof (de_safe utf8 t buf) as S. destruct (de utf8 t buf) as [[v r]| |]; try easy.
    split; [discriminate|]. intros v' rest E. apply ok_inj in E. now injection E as <- <-.
  Qed.

  (** A sequence of unit-length writes is the concatenation of the encodings: Vec<T> is its length
      followed by its items. *)
  Theorem serialize_vec_bytes t (l : list (val t)) room b : ser (TVec t) l room = Ok b ->
    (N.of_nat (length l) < 2 ^ 32)%N /\
    exists bs, length bs = length l /\ b = le_bytes 4 (N.of_nat (length l)) ++ concat bs /\
      Forall2 (fun x bx => exists r, ser t x r = Ok bx) l bs.
  Proof.
    cbn [ser]. intros E. apply and_then_ok in E as (r1 & r2 & b1 & b2 & E1 & E2 & ->).
    apply ser_usize_ok in E1 as [H ->]. split; [exact H|]. clear H.
    assert (G : exists bs, length bs = length l /\ b2 = concat bs /\
      Forall2 (fun x bx => exists r, ser t x r = Ok bx) l bs).
    { revert r2 b2 E2. induction l; intros r2 b2 E2; cbn [ser_items] in E2.
      - apply ok_inj in E2. subst. exists []. repeat split; constructor.
      - apply and_then_ok in E2 as (r3 & r4 & b3 & b4 & E3 & E4 & ->).
        destruct (IHl _ _ E4) as (bs & L & -> & F). exists (b3 :: bs). cbn. rewrite L.
        repeat split; auto. constructor; eauto. }
    destruct G as (bs & L & -> & F). exists bs. auto.
  Qed.
End Ser.

(** ** Fields that are not in the canonical tower
    crates/field/src/aes_field.rs 307-343 and polyval.rs 466-492: in mode CanonicalTower the element is
    converted to the canonical field and back. *)
Definition ser_via {A} (t : ty) (to : A -> val t) (x : A) : nat -> res (list byte) := ser t (to x).
Definition de_via {A} utf8 (t : ty) (from : val t -> A) (buf : list byte) : res (A * list byte) :=
  try (y, rest) <- de utf8 t buf; Ok (from y, rest).

(** C35: for an isomorphic field the round trip holds in canonical mode as well. *)
Theorem serialize_via_roundtrip {A} utf8 t (to : A -> val t) (from : val t -> A) x room b rest :
  ty_ok t -> wf utf8 t (to x) -> from (to x) = x ->
  ser_via t to x room = Ok b -> de_via utf8 t from (b ++ rest) = Ok (x, rest).
Proof.
  intros OK W I E. unfold de_via. rewrite (serialize_roundtrip utf8 t (to x) room b rest OK W E).
  cbn [rbind]. now rewrite I.
Qed.

(** Elements of the AES tower of 2^d bytes. *)
Theorem serialize_aes_roundtrip utf8 d x room b rest : (x < 2 ^ (8 * 2 ^ N.of_nat d))%N ->
  ser_via (TUInt (2 ^ d)) (aes_to_bin d) x room = Ok b ->
  de_via utf8 (TUInt (2 ^ d)) (bin_to_aes d) (b ++ rest) = Ok (x, rest).
Proof.
  intros H. pose proof (aes_isomorphism d) as (I & R & _).
  assert (P : forall y, TowerProofs.inr (d + 3) y <-> (y < 2 ^ (8 * 2 ^ N.of_nat d))%N).
  { intros y. unfold TowerProofs.inr. replace (N.of_nat (d + 3)) with (3 + N.of_nat d)%N by lia.
    rewrite N.pow_add_r. reflexivity. }
  apply (serialize_via_roundtrip utf8 (TUInt (2 ^ d))).
  - exact Logic.I.
  - cbn [wf]. apply P in H. apply I, proj1, P in H.
    replace (256 ^ N.of_nat (2 ^ d))%N with (2 ^ (8 * 2 ^ N.of_nat d))%N; [exact H|].
    rewrite N.pow_mul_r. change (2 ^ 8)%N with 256%N. f_equal. now rewrite Nat2N.inj_pow.
  - apply R. now apply P.
Qed.

(** ** What does not hold *)

(** Deserialization accepts encodings that serialization never produces: two different byte strings
    are read as the same boolean (any nonzero byte is true) or as the same small field element (the
    unused bits of the byte are dropped). *)
Theorem deserialize_noncanonical_refuted : exists utf8 t b1 b2 (v : val t),
  ty_ok t /\ bytes_ok b1 /\ bytes_ok b2 /\ b1 <> b2 /\
  de utf8 t b1 = Ok (v, []) /\ de utf8 t b2 = Ok (v, []).
Proof.
  exists (fun _ => true), (TPair TBool (TSmall 1)), [1; 1]%N, [2; 3]%N, (true, 1%N).
  repeat split; try discriminate; try (repeat constructor; lia).
Qed.

(** OracleId::serialize truncates its index to 32 bits without an error; OracleId::invalid(), the
    default id, is not read back equal. *)
Theorem oracle_id_refuted : exists utf8 (id : val TOid) b,
  (id < 2 ^ 64)%N /\ (forall room, 4 <= room -> ser TOid id room = Ok b) /\
  exists id', de utf8 TOid b = Ok (id', []) /\ id' <> id.
Proof.
  exists (fun _ => true), (2 ^ 64 - 1)%N, [255; 255; 255; 255]%N. split; [reflexivity|]. split.
  - intros room H. do 4 (destruct room as [|room]; [lia|]). reflexivity.
  - eexists. split; [reflexivity|]. discriminate.
Qed.

(** A concrete value of a nested type: enum { A(usize), B { x : Vec<Option<u16>>, s : String }, C }. *)
Definition ex_ty := TEnum [TUsize; TPair (TVec (TOpt (TUInt 2))) TStr; TUnit].
Definition ex_val : val ex_ty := inr (inl ([Some 513%N; None], [104; 105]%N)).
Example serialize_ex :
  ty_ok ex_ty /\ wf (fun _ => true) ex_ty ex_val /\
  ser ex_ty ex_val 100 = Ok [1; 2; 0; 0; 0; 1; 1; 2; 0; 2; 0; 0; 0; 104; 105]%N /\
  ser ex_ty ex_val 14 = Err /\
  ser TUsize (2 ^ 32)%N 100 = Err /\
  de (fun _ => true) ex_ty [1; 2; 0; 0; 0; 1; 1; 2; 0; 2; 0; 0; 0; 104; 105; 7; 8]%N = Ok (ex_val, [7; 8]%N) /\
  de (fun _ => true) ex_ty [1; 2; 0; 0; 0; 1; 1; 2; 0; 2; 0; 0; 0; 104]%N = Err /\
  de (fun _ => true) ex_ty [3]%N = Err.
Proof. repeat split; try (repeat constructor; lia); try reflexivity. all: cbn; lia. Qed.

Example serialize_aes_ex : 
  ser_via (TUInt (2 ^ 1)) (aes_to_bin 1) 0x1234%N 2 = Ok (le_bytes 2 (aes_to_bin 1 0x1234)) /\
  aes_to_bin 1 0x1234%N <> 0x1234%N.
Proof. split; [reflexivity|]. vm_compute. discriminate. Qed.
