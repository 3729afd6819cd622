(** C24: binary subspaces and the evaluation domains built from them. *)
Require Import Coq.NArith.NArith Coq.setoid_ring.Ring Coq.Arith.Arith Coq.Lists.List Coq.Bool.Bool Lia.
From Verif Require Import Base.Fld Base.Lists Base.Sums Base.NatBits Field.TowerModel Field.TowerProofs Field.Examples
  Math.UnivariateModel Math.UnivariateProps Ntt.NttSpec Ntt.SubspaceTheory Ntt.SubspaceModel.
Import ListNotations.
Local Close Scope N_scope.
Local Open Scope nat_scope.

Lemma NoDup_prefix {A} n (l : list A) : NoDup l -> NoDup (firstn n l).
Proof.
  intros ND. rewrite <- (firstn_skipn n l) in ND. revert ND. generalize (firstn n l), (skipn n l).
  induction l0 as [|a l0 IH]; intros l1 ND; [constructor|]. cbn in ND. inversion ND as [|? ? NI ND']; subst.
  constructor; [|eauto]. intros I. apply NI. apply in_or_app. now left.
Qed.

Section Props.
  Variable F : field.
  Hypothesis H2 : char2 F.
  Local Open Scope fld_scope.
  Add Ring Fring : (f_ring F).

  (** Membership in the span, independently of any indexing: some choice of coefficients. *)
  Definition in_span (basis : list F) (x : F) : Prop :=
    exists cs : list bool, length cs = length basis /\
      x = fsum (map (fun '(c, b) => if c : bool then b else 0) (combine cs basis)).

  Lemma fold_get (index : nat) : forall (l : list F) s acc,
    fold_left (fun acc '(i, b) => if Nat.testbit index i then acc + b else acc) (combine (seq s (length l)) l) acc =
    acc + sumn (length l) (fun i => if Nat.testbit index (s + i) then nth i l 0 else 0).
  Proof.
    induction l as [|b l IH]; intros s acc; cbn [length seq combine fold_left].
    - rewrite sumn_0. ring.
    - rewrite IH. replace (S (length l)) with (1 + length l)%nat by lia. rewrite sumn_split, sumn_1, Nat.add_0_r.
      cbn [nth].
      rewrite (sumn_ext F _ (fun i => if Nat.testbit index (s + (1 + i)) then nth (1 + i) (b :: l) 0 else 0)
                 (fun i => if Nat.testbit index (S s + i) then nth i l 0 else 0)).
      + destruct (Nat.testbit index s); ring.
      + intros i Hi. now replace (s + (1 + i))%nat with (S s + i)%nat by lia.
  Qed.

  Lemma combine_seq_min (l : list F) n s : (length l <= n)%nat -> combine (seq s n) l = combine (seq s (length l)) l.
  Proof.
    revert n s. induction l as [|b l IH]; intros n s L; [now destruct (seq s n)|].
    destruct n as [|n]; cbn in *; [lia|]. f_equal. apply IH. lia.
  Qed.

  (** [get] is the sum of the basis elements selected by the index. *)
  Theorem subspace_get_spec (basis : list F) index : (index < 2 ^ usize_bits)%nat ->
    sub_get basis index = elem basis index.
  Proof.
    intros L. unfold sub_get.
    rewrite (combine_seq_min (firstn usize_bits basis)) by (rewrite firstn_length; apply Nat.le_min_l).
    rewrite fold_get. unfold elem. rewrite firstn_length.
    rewrite (sumn_ext F _ _ (fun b => if Nat.testbit index b then nth b basis 0 else 0)).
    2:{ intros i Hi. cbn [Nat.add]. rewrite nth_firstn_lt; auto.
        apply Nat.min_glb_lt_iff in Hi. tauto. }
    destruct (Nat.le_gt_cases (length basis) usize_bits).
    - rewrite Nat.min_r by auto. ring.
    - rewrite Nat.min_l by lia. rewrite (sumn_trunc F usize_bits (length basis)); [ring|lia|].
      intros i Hi. now rewrite (bit_above index usize_bits) by (auto; lia).
  Qed.

  Lemma coeffs_sum : forall (basis : list F) (cs : list bool), length cs = length basis ->
    exists m, (m < 2 ^ length basis)%nat /\
      fsum (map (fun '(c, b) => if c : bool then b else 0) (combine cs basis)) = elem basis m.
  Proof.
    induction basis as [|b basis IH] using rev_ind; intros cs L.
    - exists 0%nat. destruct cs; [|cbn in L; lia]. split; [cbn; lia|]. reflexivity.
    - rewrite app_length in L. cbn in L. destruct (exists_last (l := cs)) as [cs' [c E]]; [destruct cs; cbn in L; [lia|discriminate]|].
      subst cs. rewrite app_length in L. cbn in L. destruct (IH cs') as [m [Lm Em]]; [lia|].
      assert (C : combine (cs' ++ [c]) (basis ++ [b]) = combine cs' basis ++ [(c, b)]).
      { assert (LL : length cs' = length basis) by lia. clear - LL. revert basis LL.
        induction cs'; intros [|x basis] LL; cbn in *; try lia; auto. f_equal. apply IHcs'. lia. }
      rewrite C, map_app, fsum_app, Em. cbn [map fsum].
      exists ((if c then 1 else 0) * 2 ^ length basis + m)%nat. split.
      + rewrite app_length, Nat.add_1_r, pow2_S. destruct c; lia.
      + unfold elem. rewrite app_length, Nat.add_1_r, sumn_S.
        rewrite mix_bit_hi, Nat.sub_diag by auto. rewrite app_nth2, Nat.sub_diag by lia. cbn [nth].
        rewrite (sumn_ext F _ (fun b0 => if Nat.testbit _ b0 then nth b0 (basis ++ [b]) 0 else 0)
                  (fun b0 => if Nat.testbit m b0 then nth b0 basis 0 else 0)).
        2:{ intros i Hi. rewrite mix_bit_lo, app_nth1 by auto. reflexivity. }
        destruct c; cbn [Nat.testbit Nat.odd Nat.even negb]; ring.
  Qed.

  Lemma elem_in_span (basis : list F) m : in_span basis (elem basis m).
  Proof.
    exists (map (Nat.testbit m) (seq 0 (length basis))). split; [now rewrite map_length, seq_length|].
    unfold elem, sumn. f_equal.
    assert (G : forall l s (f : nat -> F), (forall i, (i < length l)%nat -> nth i l 0 = f (s + i)%nat) ->
       map (fun b => if Nat.testbit m b then f b else 0) (seq s (length l)) =
       map (fun '(c, b) => if c : bool then b else 0) (combine (map (Nat.testbit m) (seq s (length l))) l)).
    { induction l as [|b l IH]; intros s f Hf; [reflexivity|]. cbn [length seq map combine]. f_equal.
      - rewrite <- (Nat.add_0_r s) at 2. rewrite <- (Hf 0%nat) by (cbn; lia). reflexivity.
      - apply IH. intros i Hi. replace (S s + i)%nat with (s + S i)%nat by lia. rewrite <- (Hf (S i)) by (cbn; lia). reflexivity. }
    apply G. intros i Hi. now rewrite Nat.add_0_l.
  Qed.

  (** For a linearly independent basis, [get] lists every element of the span exactly once. *)
  Theorem subspace_get_bijective (basis : list F) :
    lin_indep basis -> (length basis <= usize_bits)%nat ->
    (forall i, (i < 2 ^ length basis)%nat -> in_span basis (sub_get basis i)) /\
    (forall x, in_span basis x -> exists i, (i < 2 ^ length basis)%nat /\ sub_get basis i = x) /\
    (forall i j, (i < 2 ^ length basis)%nat -> (j < 2 ^ length basis)%nat ->
       sub_get basis i = sub_get basis j -> i = j).
  Proof.
    intros I L. pose proof (pow2_le _ _ L) as P.
    assert (G : forall i, (i < 2 ^ length basis)%nat -> sub_get basis i = elem basis i).
    { intros i Hi. apply subspace_get_spec. lia. }
    split; [|split].
    - intros i Hi. rewrite G by auto. apply elem_in_span.
    - intros x [cs [Lc E]]. destruct (coeffs_sum basis cs Lc) as [m [Lm Em]]. exists m. split; auto.
      rewrite G by auto. congruence.
    - intros i j Hi Hj. rewrite !G by auto. now apply elem_inj.
  Qed.

  (** Indices add like bit vectors. *)
  Theorem subspace_get_add (basis : list F) i j : (i < 2 ^ usize_bits)%nat -> (j < 2 ^ usize_bits)%nat ->
    sub_get basis (Nat.lxor i j) = sub_get basis i + sub_get basis j.
  Proof.
    intros Hi Hj. rewrite !subspace_get_spec by (auto using lxor_lt_pow).
    rewrite !elem_bsum. now apply bsum_lxor.
  Qed.

  (** [get_checked] rejects exactly the indices outside the subspace (dimension below 64). *)
  Theorem subspace_get_checked_spec (basis : list F) index : (length basis < usize_bits)%nat ->
    sub_get_checked basis index =
      if (index <? 2 ^ length basis)%nat then Ok (elem basis index) else Err.
  Proof.
    intros L. unfold sub_get_checked. rewrite (proj2 (Nat.leb_gt usize_bits (length basis))) by auto.
    pose proof (pow2_lt _ _ L).
    destruct (Nat.leb_spec (2 ^ length basis) index), (Nat.ltb_spec index (2 ^ length basis)); try lia; auto.
    now rewrite subspace_get_spec by lia.
  Qed.

  (** A subspace of dimension 64 or more (such as the default one of the 128-bit field) rejects or
      panics on valid indices. *)
  Theorem subspace_get_checked_large_refuted (basis : list F) :
    (usize_bits <= length basis)%nat -> (length basis mod usize_bits = 0)%nat ->
    exists index, (index < 2 ^ length basis)%nat /\ (index < 2 ^ usize_bits)%nat /\
      sub_get_checked basis index = Panic /\ sub_get_checked_wrapping basis index = Err.
  Proof.
    intros L M. pose proof (pow2_le 1 usize_bits ltac:(unfold usize_bits; lia)).
    pose proof (pow2_le _ _ L). change (2 ^ 1)%nat with 2%nat in *. exists 1%nat. split; [lia|]. split; [lia|].
    unfold sub_get_checked, sub_get_checked_wrapping. rewrite (proj2 (Nat.leb_le _ _) L), M. auto.
  Qed.

  (** [iter] yields the elements in index order. *)
  Theorem subspace_iter_spec (basis : list F) i :
    nth_error (sub_iter basis) i =
      if (i <? 2 ^ Nat.min (length basis) usize_bits)%nat then Some (sub_get basis i) else None.
  Proof.
    unfold sub_iter.
    assert (E : S (if length basis <? usize_bits then 2 ^ length basis - 1 else 2 ^ usize_bits - 1) =
                (2 ^ Nat.min (length basis) usize_bits)%nat).
    { destruct (Nat.ltb_spec (length basis) usize_bits).
      - rewrite Nat.min_l by lia. pose proof (pow2_pos (length basis)). lia.
      - rewrite Nat.min_r by lia. pose proof (pow2_pos usize_bits). lia. }
    cbv zeta. rewrite E. rewrite nth_error_map, nth_error_seq.
    destruct (Nat.ltb_spec i (2 ^ Nat.min (length basis) usize_bits)); reflexivity.
  Qed.

  Theorem subspace_iter_nodup (basis : list F) : lin_indep basis -> (length basis <= usize_bits)%nat ->
    NoDup (sub_iter basis) /\ length (sub_iter basis) = (2 ^ length basis)%nat.
  Proof.
    intros I L. pose proof (subspace_get_bijective basis I L) as [_ [_ INJ]].
    assert (LEN : length (sub_iter basis) = (2 ^ length basis)%nat).
    { unfold sub_iter. rewrite map_length, seq_length. destruct (Nat.ltb_spec (length basis) usize_bits).
      - pose proof (pow2_pos (length basis)). lia.
      - replace (length basis) with usize_bits by lia. pose proof (pow2_pos usize_bits). lia. }
    split; auto. apply NoDup_nth_error. intros i j Hi E. rewrite LEN in Hi.
    rewrite !subspace_iter_spec, Nat.min_l in E by auto.
    rewrite (proj2 (Nat.ltb_lt _ _) Hi) in E. destruct (Nat.ltb_spec j (2 ^ length basis)); [|discriminate].
    apply INJ; auto. congruence.
  Qed.

  (** [reduce_dim] keeps a prefix, so the indices of the smaller space address the same elements. *)
  Theorem subspace_reduce_dim_spec (basis : list F) dim :
    (sub_reduce_dim basis dim = Err <-> (length basis < dim)%nat) /\
    forall b, sub_reduce_dim basis dim = Ok b ->
      b = firstn dim basis /\ length b = dim /\
      (lin_indep basis -> lin_indep b) /\
      forall i, (i < 2 ^ dim)%nat -> elem b i = elem basis i.
  Proof.
    unfold sub_reduce_dim. destruct (Nat.ltb_spec (length basis) dim) as [L|L]; split.
    - tauto.
    - discriminate.
    - split; [discriminate|lia].
    - intros b E. inversion E as [E']. clear E. subst b.
      assert (EL : forall i, (i < 2 ^ dim)%nat -> elem (firstn dim basis) i = elem basis i).
      { intros i Hi. unfold elem. rewrite firstn_length_le by auto.
        rewrite (sumn_trunc F dim (length basis)); auto.
        - apply sumn_ext. intros k Hk. now rewrite nth_firstn_lt by auto.
        - intros k Hk. now rewrite (bit_above i dim) by (auto; lia). }
      split; [reflexivity|]. split; [now apply firstn_length_le|]. split; auto.
      intros I m Hm Em. rewrite firstn_length_le in Hm by auto. apply I.
      + pose proof (pow2_le _ _ L). lia.
      + now rewrite <- EL.
  Qed.

  (** Every requested domain that fits is built: its finite points are the first elements of the
      subspace, with the point at infinity added from size 3 on. *)
  Theorem domain_create_spec (basis : list F) size : lin_indep basis -> (length basis <= usize_bits)%nat ->
    let finite := if (3 <=? size)%nat then (size - 1)%nat else size in
    ((2 ^ length basis < finite)%nat -> domain_create basis size = Err) /\
    ((finite <= 2 ^ length basis)%nat -> exists d, domain_create basis size = Ok d /\
       ed_points d = map (elem basis) (seq 0 finite) /\ ed_inf d = (3 <=? size)%nat /\ ed_size d = size).
  Proof.
    intros I L finite. destruct (subspace_iter_nodup basis I L) as [ND LEN].
    assert (FE : (size - (if 3 <=? size then 1 else 0))%nat = finite)
      by (unfold finite; destruct (3 <=? size); lia).
    unfold domain_create. cbv zeta. rewrite FE. unfold make_evaluation_points. rewrite firstn_length, LEN.
    split.
    - intros H. rewrite Nat.min_r by lia. rewrite (proj2 (Nat.eqb_neq _ _)) by lia. reflexivity.
    - intros H. rewrite Nat.min_l by lia. rewrite Nat.eqb_refl. cbn [rbind].
      assert (PE : firstn finite (sub_iter basis) = map (elem basis) (seq 0 finite)).
      { apply nth_error_ext. intros i. rewrite nth_error_firstn, nth_error_map, nth_error_seq.
        destruct (Nat.ltb_spec i finite); [|reflexivity].
        rewrite subspace_iter_spec, Nat.min_l by auto. rewrite (proj2 (Nat.ltb_lt _ _)) by lia.
        cbn [option_map]. rewrite subspace_get_spec; [reflexivity|]. pose proof (pow2_le _ _ L). lia. }
      destruct (proj1 (from_points_correct F (firstn finite (sub_iter basis)) (3 <=? size)%nat)) as [d [E [EP EI]]].
      { now apply NoDup_prefix. }
      exists d. split; auto. split; [congruence|]. split; auto.
      unfold ed_size. rewrite EP, EI, firstn_length, LEN, Nat.min_l by lia.
      unfold finite. destruct (Nat.leb_spec 3 size); lia.
  Qed.
End Props.

(** An isomorphic subspace has the images of the elements, in the same order. *)
Theorem subspace_isomorphic_spec (F G : field) (iota : F -> G) (basis : list F) i :
  iota f0 = f0 -> (forall x y, iota (fadd x y) = fadd (iota x) (iota y)) ->
  elem (sub_isomorphic iota basis) i = iota (elem basis i).
Proof.
  intros I0 IA. unfold elem, sub_isomorphic. rewrite map_length.
  assert (G0 : forall n (f : nat -> F), iota (sumn n f) = sumn n (fun k => iota (f k))).
  { intros n f. induction n; [exact I0|]. now rewrite !sumn_S, IA, IHn. }
  rewrite G0. apply sumn_ext. intros k Hk. destruct (Nat.testbit i k); [|now rewrite I0].
  now rewrite (nth_map_lt iota basis k f0 f0).
Qed.

(** The default subspace of the tower field of height [k]: [F::basis_checked]. *)
Definition tower_basis_checked (k i : nat) : option (TF k) :=
  option_map (dec k) (tbasis k 0 (N.of_nat i)).

Lemma tower_omap k n : (n <= 2 ^ k)%nat ->
  omap (tower_basis_checked k) (seq 0 n) = Some (map (fun i => dec k (2 ^ N.of_nat i)%N) (seq 0 n)).
Proof.
  intros L.
  assert (G : forall m s, (s + m <= 2 ^ k)%nat -> omap (tower_basis_checked k) (seq s m) =
     Some (map (fun i => dec k (2 ^ N.of_nat i)%N) (seq s m))).
  { induction m as [|m IH]; intros s Hs; [reflexivity|]. cbn [seq omap map].
    unfold tower_basis_checked at 1, tbasis. rewrite (proj2 (N.leb_gt _ _)).
    - cbn [option_map obind]. rewrite IH by lia. cbn [obind]. change (nbits 0) with 1%N. rewrite N.mul_1_r, N.shiftl_1_l. reflexivity.
    - rewrite nbits_pow. replace 2%N with (N.of_nat 2) by reflexivity. rewrite <- Nat2N.inj_pow. lia. }
  apply G. lia.
Qed.

Lemma tower_elem k n m : (n <= 2 ^ k)%nat -> (m < 2 ^ n)%nat ->
  elem (map (fun i => dec k (2 ^ N.of_nat i)%N) (seq 0 n)) m = dec k (N.of_nat m).
Proof.
  intros L. unfold elem. rewrite map_length, seq_length.
  assert (G : forall j, (j <= n)%nat -> forall m, (m < 2 ^ j)%nat ->
    sumn j (fun b => if Nat.testbit m b then nth b (map (fun i => dec k (2 ^ N.of_nat i)%N) (seq 0 n)) f0 else f0) =
    dec k (N.of_nat m)).
  { clear m. induction j as [|j IH]; intros Lj m Lm.
    - cbn in Lm. replace m with 0%nat by lia. rewrite sumn_0. symmetry. apply dec_0.
    - rewrite sumn_S, nth_map_seq by lia.
      rewrite (sumn_ext _ j _ (fun b => if Nat.testbit (m mod 2 ^ j) b
         then nth b (map (fun i => dec k (2 ^ N.of_nat i)%N) (seq 0 n)) f0 else f0)).
      2:{ intros i Hi. now rewrite Nat.mod_pow2_bits_low. }
      rewrite IH by (try lia; apply mod_lt). pose proof (split_bit m j) as S.
      rewrite (Nat.div_small m (2 ^ Datatypes.S j)) in S by auto. cbn [Nat.mul Nat.add] in S.
      destruct (Nat.testbit m j).
      + rewrite S at 2. rewrite <- dec_add. f_equal. unfold tadd.
        rewrite Nat2N.inj_add, Nat2N.inj_pow. change (N.of_nat 2) with 2%N.
        assert (Q : (N.of_nat (m mod 2 ^ j) < 2 ^ N.of_nat j)%N).
        { change 2%N with (N.of_nat 2). rewrite <- Nat2N.inj_pow. pose proof (mod_lt m j). lia. }
        rewrite N.add_comm. symmetry. apply N.add_nocarry_lxor.
        apply N.bits_inj. intros i. rewrite N.land_spec, N.bits_0, N.pow2_bits_eqb.
        destruct (N.eqb_spec (N.of_nat j) i) as [<-|]; [|now rewrite andb_false_r].
        rewrite (Base.Bits.testbit_high _ _ _ Q) by lia. reflexivity.
      + rewrite S at 2. cbn [Nat.add].
        pose proof (f_ring (TF k)) as R. now rewrite (Radd_comm R), (Radd_0_l R). }
  intros Lm. now apply G.
Qed.

(** [with_dim] on a tower field: exactly the dimensions up to the degree are accepted; the basis
    starts with 1, is independent, and index [m] is the element with bit pattern [m]. *)
Theorem with_dim_tower k dim :
  (sub_with_dim (tower_basis_checked k) dim = Err <-> (2 ^ k < dim)%nat) /\
  forall b, sub_with_dim (tower_basis_checked k) dim = Ok b ->
    length b = dim /\ (0 < dim -> nth 0 b f0 = f1) /\ lin_indep b /\
    forall m, (m < 2 ^ dim)%nat -> enc k (elem b m) = N.of_nat m.
Proof.
  unfold sub_with_dim. destruct (Nat.le_gt_cases dim (2 ^ k)) as [L|L].
  - rewrite tower_omap by auto. split; [split; [discriminate|lia]|].
    intros b E. inversion E as [E']. clear E. subst b.
    assert (INR : forall m, (m < 2 ^ dim)%nat -> inr k (N.of_nat m)).
    { intros m Hm. apply inr_nbits. rewrite nbits_pow. change 2%N with (N.of_nat 2). rewrite <- !Nat2N.inj_pow.
      pose proof (pow2_le _ _ L). lia. }
    split; [now rewrite map_length, seq_length|]. split.
    { intros P. rewrite nth_map_seq by auto. apply dec_1. }
    assert (EE : forall m, (m < 2 ^ dim)%nat ->
       enc k (elem (map (fun i => dec k (2 ^ N.of_nat i)%N) (seq 0 dim)) m) = N.of_nat m).
    { intros m Hm. rewrite tower_elem by auto. apply enc_dec. auto. }
    split; auto. intros m Hm Z. rewrite map_length, seq_length in Hm.
    apply EE in Hm as E1. rewrite Z in E1. pose proof (pow2_pos dim) as P0.
    assert (E0 := EE 0%nat P0). rewrite tower_elem, dec_0 in E0 by auto. change (N.of_nat 0) with 0%N in E0. lia.
  - assert (N : omap (tower_basis_checked k) (seq 0 dim) = None).
    { replace dim with ((2 ^ k) + (1 + (dim - 2 ^ k - 1)))%nat by lia. rewrite seq_app.
      assert (G : forall l1 l2 : list nat, omap (tower_basis_checked k) l2 = None -> omap (tower_basis_checked k) (l1 ++ l2) = None).
      { induction l1 as [|a l1 IH]; intros l2 H; cbn [app omap]; auto.
        destruct (tower_basis_checked k a); cbn [obind]; auto. now rewrite IH. }
      apply G. cbn [Nat.add seq omap]. unfold tower_basis_checked at 1, tbasis.
      rewrite (proj2 (N.leb_le _ _)); [reflexivity|]. rewrite nbits_pow. change 2%N with (N.of_nat 2).
      rewrite <- Nat2N.inj_pow. lia. }
    rewrite N. split; [tauto|discriminate].
Qed.

(** Concrete cases over the field with 16 elements. *)
Example subspace_ex :
  shown (sub_with_dim (tower_basis_checked 2) 3) = Ok [1; 2; 4]%N /\
  shown (sub_with_dim (tower_basis_checked 2) 5) = Err /\
  shown (Ok (sub_iter (els [1; 6; 8]%N))) = Ok [0; 1; 6; 7; 8; 9; 14; 15]%N /\
  bits (sub_get (els [1; 6; 8]%N) 5) = 9%N /\
  (match sub_get_checked (els [1; 6; 8]%N) 8 with Err => true | _ => false end) = true /\
  lin_indep (els [1; 6; 8]%N).
Proof.
  split; [vm_compute; reflexivity|]. split; [vm_compute; reflexivity|]. split; [vm_compute; reflexivity|].
  split; [vm_compute; reflexivity|]. split; [vm_compute; reflexivity|].
  intros m Hm. assert (D : (m = 0 \/ m = 1 \/ m = 2 \/ m = 3 \/ m = 4 \/ m = 5 \/ m = 6 \/ m = 7)%nat) by (cbn in Hm; lia).
  repeat (destruct D as [-> | D]; [vm_compute; congruence|]). subst. vm_compute. congruence.
Qed.

Example domain_create_ex :
  (match domain_create (els [1; 6; 8]%N) 5 with
   | Ok d => Some (map bits (ed_points d), ed_inf d) | _ => None end) = Some ([0; 1; 6; 7]%N, true) /\
  (match domain_create (els [1]%N) 4 with Err => true | _ => false end) = true.
Proof. split; vm_compute; reflexivity. Qed.
