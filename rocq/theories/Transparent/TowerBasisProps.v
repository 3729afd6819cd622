(** C43 continued: the tower basis polynomial, the defects of two tabulations, and (C61) the
    serialization of tabulated transparent multilinears. *)
Require Import Coq.setoid_ring.Ring Coq.Arith.Arith Coq.Lists.List Coq.Bool.Bool Coq.NArith.NArith Lia.
From Verif Require Import Base.Fld Base.Lists Base.Sums Math.MleSpec Math.MleModel Math.TensorProps
  Math.MleProofs Math.MleProps Field.Examples Field.TowerModel Field.TowerProofs Field.TowerBases
  Transparent.TransparentModel Transparent.TransparentProps.
Import ListNotations.
Local Close Scope N_scope.
Local Open Scope nat_scope.

(** * Tower basis *)

(** The generator adjoined at level [m + 1]: the element with the single bit [2^m]. *)
Definition generator (L m : nat) : TF L := dec L (2 ^ 2 ^ N.of_nat m)%N.

(** The [i]-th basis element over the level [iota]: the product of the generators selected by the
    bits of [i]. *)
Definition basis_product (L iota i : nat) : TF L :=
  prodn (F := TF L) (L - iota) (fun j => if Nat.testbit i j then generator L (iota + j) else f1).

Lemma dec_shift L m a : m < L -> inr m a ->
  dec L (N.shiftl a (nbits m)) = fmul (dec L a) (generator L m).
Proof.
  unfold generator. rewrite <- nbits_pow, <- N.shiftl_1_l. revert m a.
  induction L as [|L IH]; intros m a Hm Ha; [lia|].
  assert (HJ : forall b, inr m b -> inr (S m) (N.shiftl b (nbits m))).
  { intros b Hb. change (N.shiftl b (nbits m)) with (join m 0 b). apply join_inr; auto. apply inr_0. }
  pose proof (f_ring (TF (S L))) as R.
  destruct (Nat.eq_dec m L) as [->|NE].
  - rewrite (Rmul_comm R), <- dec_mul.
    2:{ apply HJ, inr_1. } 2:{ now apply inr_S. }
    f_equal. rewrite tmul_sub_halves; auto. 2:{ apply HJ, inr_1. }
    change (N.shiftl 1 (nbits L)) with (join L 0 1). rewrite lo_join, hi_join by (apply inr_0 || apply inr_1).
    change (N.shiftl a (nbits L)) with (join L 0 a). pose proof (f_ring (TF L)) as R'. f_equal.
    + apply (dec_inj L); [apply inr_0|apply tmul_inr; auto using inr_0|].
      rewrite dec_mul by auto using inr_0. rewrite dec_0. symmetry. apply (Ring_theory.ARmul_0_l (Ring_theory.Rth_ARth (Eqsth _) (Eq_ext _ _ _) R')).
    + apply (dec_inj L); [auto|apply tmul_inr; auto using inr_1|].
      rewrite dec_mul by auto using inr_1. rewrite dec_1. symmetry. apply (Rmul_1_l R').
  - rewrite !dec_small; try (apply (inr_le (S m)); [lia|apply HJ; auto using inr_1]); [|apply (inr_le m); auto; lia].
    rewrite IH by (auto; lia). apply emb_fmul.
Qed.

Section TowerBasis.
  Variable L : nat.
  Notation F := (TF L).
  Local Open Scope fld_scope.
  Add Ring FLring : (f_ring (TF L)).

  (** Product of the generators selected by the bits of [e]. *)
  Definition bitprod (e : nat) : F := prodn (F := F) L (fun j => if Nat.testbit e j then generator L j else 1).

  Lemma prodn_ones n m f : (n <= m)%nat -> (forall i, (n <= i < m)%nat -> f i = (1 : F)) -> prodn m f = prodn n f.
  Proof.
    intros H. induction H as [|m H IH]; intros Hf; auto.
    rewrite prodn_S, IH by (intros; apply Hf; lia). rewrite Hf by lia. ring.
  Qed.

  Lemma bitprod_add a b : Nat.land a b = 0%nat -> bitprod (a + b) = bitprod a * bitprod b.
  Proof.
    intros H. rewrite Nat.add_nocarry_lxor by auto. unfold bitprod. rewrite <- prodn_mul. apply prodn_ext.
    intros i _. rewrite Nat.lxor_spec. assert (B : (Nat.testbit a i && Nat.testbit b i)%bool = false).
    { rewrite <- Nat.land_spec, H. apply Nat.bits_0. }
    destruct (Nat.testbit a i), (Nat.testbit b i); cbn in *; try discriminate; ring.
  Qed.

  Lemma dec_bit k : (k <= L)%nat -> forall e, (e < 2 ^ k)%nat -> dec L (2 ^ N.of_nat e)%N = bitprod e.
  Proof.
    induction k as [|k IH]; intros Hk e He.
    - cbn in He. replace e with 0%nat by lia. unfold bitprod.
      rewrite (prodn_ones 0 L); [|lia|intros; now rewrite Nat.bits_0].
      rewrite prodn_0. cbn [N.of_nat N.pow]. now rewrite dec_1.
    - destruct (Nat.lt_ge_cases e (2 ^ k)) as [Hl|Hl]; [apply IH; auto; lia|].
      cbn [Nat.pow] in He. set (e' := (e - 2 ^ k)%nat). assert (E : (e = e' + 2 ^ k)%nat) by (unfold e'; lia).
      assert (He' : (e' < 2 ^ k)%nat) by (unfold e'; lia).
      assert (EN : (2 ^ N.of_nat e)%N = N.shiftl (2 ^ N.of_nat e') (nbits k)).
      { rewrite N.shiftl_mul_pow2, <- N.pow_add_r. f_equal. rewrite E, Nat2N.inj_add, nbits_nat. reflexivity. }
      assert (HN : inr k (2 ^ N.of_nat e')%N).
      { unfold inr. apply N.pow_lt_mono_r; [lia|]. rewrite <- (nbits_pow k), <- nbits_nat. lia. }
      rewrite EN, dec_shift by (auto; lia).
      rewrite IH by (auto; lia). rewrite E, bitprod_add.
      + f_equal. unfold bitprod. rewrite (prodn_ones (S k) L); [|lia|].
        * rewrite prodn_S, Nat.pow2_bits_eqb, Nat.eqb_refl.
          transitivity (prodn (F := F) k (fun _ => 1) * generator L k).
          -- rewrite (prodn_ones 0 k) by (auto; lia). rewrite prodn_0. ring.
          -- f_equal. apply prodn_ext. intros i Hi. rewrite Nat.pow2_bits_eqb, (proj2 (Nat.eqb_neq _ _)) by lia. reflexivity.
        * intros i Hi. rewrite Nat.pow2_bits_eqb, (proj2 (Nat.eqb_neq _ _)) by lia. reflexivity.
      + apply Nat.bits_inj. intros i. rewrite Nat.land_spec, Nat.bits_0, Nat.pow2_bits_eqb.
        destruct (Nat.eqb_spec k i) as [<-|]; [|apply andb_false_r].
        rewrite <- (Nat.mod_small e' (2 ^ k)), Nat.mod_pow2_bits_high by auto. reflexivity.
  Qed.

  Lemma mul_pow_lt i a b : (a <= b)%nat -> (i < 2 ^ (b - a))%nat -> (i * 2 ^ a < 2 ^ b)%nat.
  Proof.
    intros H Hi. replace (2 ^ b)%nat with (2 ^ (b - a) * 2 ^ a)%nat.
    - pose proof (pow2_gt0 a). nia.
    - rewrite <- Nat.pow_add_r. f_equal. lia.
  Qed.

  (** The basis element [i] over level [iota], and the exact failure conditions. *)
  Theorem tower_basis_elt_correct iota i :
    tower_basis_elt L iota i =
      if (iota <=? L)%nat && (i <? 2 ^ (L - iota))%nat then Ok (basis_product L iota i) else Err.
  Proof.
    unfold tower_basis_elt. destruct (Nat.leb_spec iota L) as [HI|HI].
    - rewrite (proj2 (Nat.ltb_ge _ _)) by lia. cbn [andb]. rewrite Nat.ltb_antisym.
      destruct (Nat.leb_spec (2 ^ (L - iota)) i) as [Hi|Hi]; auto. cbn [negb].
      pose proof (mul_pow_lt i iota L HI Hi) as HB.
      unfold tbasis. rewrite (proj2 (N.leb_gt _ _)) by (rewrite <- nbits_nat; lia).
      change (nbits 0) with 1%N. rewrite N.mul_1_r, N.shiftl_1_l. f_equal.
      rewrite (dec_bit L) by auto. unfold bitprod, basis_product.
      match goal with |- prodn L ?f = _ => replace (prodn L f) with (prodn (F := F) (iota + (L - iota)) f) by (f_equal; lia) end.
      rewrite prodn_split.
      replace (prodn iota _) with (1 : F).
      + transitivity (1 * prodn (F := F) (L - iota) (fun j => if Nat.testbit i j then generator L (iota + j) else 1)); [|ring].
        f_equal. apply prodn_ext. intros j Hj. now rewrite (Nat.add_comm iota j), Nat.mul_pow2_bits_add.
      + symmetry. rewrite (prodn_ones 0 iota); [apply prodn_0|lia|].
        intros j Hj. rewrite Nat.mul_pow2_bits_low by lia. reflexivity.
    - rewrite (proj2 (Nat.ltb_lt _ _)) by lia. reflexivity.
  Qed.

  Lemma basis_product_step iota x : (iota < L)%nat ->
    basis_product L iota (2 * x) = basis_product L (S iota) x /\
    basis_product L iota (2 * x + 1) = basis_product L (S iota) x * basis_product L iota 1.
  Proof.
    intros H. unfold basis_product.
    assert (SH : forall f : nat -> F, prodn (L - iota) f = f 0%nat * prodn (L - S iota) (fun j => f (S j))).
    { intros f. replace (L - iota)%nat with (1 + (L - S iota))%nat by lia. rewrite prodn_split, prodn_S, prodn_0.
      f_equal. ring. }
    rewrite !SH. rewrite Nat.testbit_even_0, Nat.testbit_odd_0.
    assert (E1 : prodn (L - S iota) (fun j => if Nat.testbit (2 * x) (S j) then generator L (iota + S j) else 1)
                 = prodn (F := F) (L - S iota) (fun j => if Nat.testbit x j then generator L (S iota + j) else 1)).
    { apply prodn_ext. intros j _. rewrite Nat.testbit_even_succ by lia. now replace (iota + S j)%nat with (S iota + j)%nat by lia. }
    assert (E2 : prodn (L - S iota) (fun j => if Nat.testbit (2 * x + 1) (S j) then generator L (iota + S j) else 1)
                 = prodn (F := F) (L - S iota) (fun j => if Nat.testbit x j then generator L (S iota + j) else 1)).
    { apply prodn_ext. intros j _. rewrite Nat.testbit_odd_succ by lia. now replace (iota + S j)%nat with (S iota + j)%nat by lia. }
    rewrite E1, E2. split; [ring|].
    assert (E3 : prodn (L - S iota) (fun j => if Nat.testbit 1 (S j) then generator L (iota + S j) else 1) = (1 : F)).
    { rewrite (prodn_ones 0); [apply prodn_0|lia|]. intros j _. change 1%nat with (2 * 0 + 1)%nat at 1.
      rewrite Nat.testbit_odd_succ by lia. now rewrite Nat.bits_0. }
    rewrite E3. change (Nat.testbit 1 0) with true. cbv iota. ring.
  Qed.

  Lemma tower_basis_loop_spec iota (q : list F) : forall s acc, (iota + s + length q <= L)%nat ->
    tower_basis_loop L iota q s acc = Ok (acc * mle (basis_product L (iota + s)) q).
  Proof.
    induction q as [|q0 q IH]; intros s acc H.
    - cbn [tower_basis_loop]. rewrite mle_nil. unfold basis_product. rewrite (prodn_ones 0); [rewrite prodn_0; f_equal; ring|lia|].
      intros. now rewrite Nat.bits_0.
    - cbn [tower_basis_loop length] in *. rewrite tower_basis_elt_correct.
      rewrite (proj2 (Nat.leb_le _ _)), (proj2 (Nat.ltb_lt _ _)).
      2:{ apply (Nat.lt_le_trans _ (2 ^ 1)); [cbn; lia|]. apply Nat.pow_le_mono_r; lia. } 2:{ lia. }
      cbn [andb rbind]. rewrite IH by lia. f_equal. rewrite mle_cons, Nat.add_succ_r.
      set (c := 1 - q0 + q0 * basis_product L (iota + s) 1).
      transitivity (acc * (c * mle (basis_product L (S (iota + s))) q)); [ring|]. f_equal.
      rewrite <- mle_scale. apply mle_ext. intros x _.
      destruct (basis_product_step (iota + s) x) as [-> ->]; [lia|]. unfold c. ring.
  Qed.

  Theorem tower_basis_new_spec k iota :
    tower_basis_new L k iota = if (iota + k <=? L)%nat then Ok (k, iota) else Err.
  Proof. unfold tower_basis_new. rewrite Nat.leb_antisym. now destruct (L <? iota + k)%nat. Qed.

  Theorem tower_basis_correct k iota : (iota + k <= L)%nat ->
    evaluates_to F (tower_basis_poly L (k, iota)) k (basis_product L iota).
  Proof.
    intros H. split; auto. intros q. cbn [tower_basis_poly mv_eval].
    destruct (Nat.eqb_spec (length q) k) as [E|E]; auto. cbn [negb].
    rewrite tower_basis_loop_spec by lia. rewrite Nat.add_0_r. f_equal. ring.
  Qed.

  Lemma rmap_ok {A B} (f : A -> res B) g l : (forall a, In a l -> f a = Ok (g a)) -> rmap f l = Ok (map g l).
  Proof.
    induction l; intros H; cbn; auto. rewrite H by now left. cbn. rewrite IHl by (intros; apply H; now right). reflexivity.
  Qed.

  (** The tabulation works exactly for packed types no wider than the table. *)
  Theorem tower_basis_extension_correct lw k iota : (iota + k <= L)%nat ->
    if (lw <=? k)%nat
    then tabulates F lw k (basis_product L iota) (tower_basis_extension lw L (k, iota))
    else tower_basis_extension lw L (k, iota) = Err.
  Proof.
    intros H. unfold tower_basis_extension. destruct (Nat.leb_spec lw k) as [HK|HK].
    - assert (EP : (2 ^ k = 2 ^ (k - lw) * 2 ^ lw)%nat) by (rewrite <- Nat.pow_add_r; f_equal; lia).
      pose proof (pow2_gt0 lw) as Hw. rewrite EP, Nat.div_mul by lia.
      set (g := fun i => map (fun j => basis_product L iota (i * 2 ^ lw + j)) (seq 0 (2 ^ lw))).
      rewrite (rmap_ok _ g).
      2:{ intros i Hi. apply in_seq in Hi. apply rmap_ok. intros j Hj. apply in_seq in Hj.
          rewrite tower_basis_elt_correct, (proj2 (Nat.leb_le _ _)), (proj2 (Nat.ltb_lt _ _)); auto; [|lia].
          apply (Nat.lt_le_trans _ (2 ^ k)); [nia|]. apply Nat.pow_le_mono_r; lia. }
      cbn [rbind]. assert (Lg : forall c, length (g c) = (2 ^ lw)%nat) by (intros; unfold g; now rewrite map_length, seq_length).
      destruct (from_values_wf F lw k (concat (map g (seq 0 (2 ^ (k - lw))))) HK) as [-> Hwf].
      { now rewrite (concat_map_length g _ Lg). }
      eexists. split; [reflexivity|]. split; auto. split; auto.
      intros x Hx. unfold table. cbn [me_evals]. rewrite (nth_concat_map g _ f0 Lg Hw) by nia.
      unfold g. rewrite (nth_map_seq (fun j => basis_product L iota ((0 + x / 2 ^ lw) * 2 ^ lw + j))) by (apply Nat.mod_upper_bound; lia).
      f_equal. pose proof (Nat.div_mod x (2 ^ lw) ltac:(lia)). lia.
    - rewrite Nat.div_small by (apply Nat.pow_lt_mono_r; lia). cbn. unfold me_from_values. cbn [length].
      rewrite Nat.div_0_l by (apply Nat.pow_nonzero; lia). reflexivity.
  Qed.
End TowerBasis.

(** * Defects of the tabulations *)

(** With two lanes per packed element the second chunk of the powers table starts at the wrong power:
    entry 2048 is the power 1024. *)
Theorem powers_extension_wide_refuted :
  exists lw n (b : X16) m x, powers_extension lw n b = Ok m /\ x < 2 ^ n /\ table m x <> fpow b x.
Proof.
  exists 1, 12, (el 2).
  destruct (powers_extension_spec X16 1 12 (el 2)) as (m & E & _ & _ & V).
  exists m, (2 ^ 10 * 2 ^ 1). split; auto.
  assert (H : 2 ^ 10 * 2 ^ 1 < 2 ^ 12) by (rewrite <- Nat.pow_add_r; apply Nat.pow_lt_mono_r; lia).
  split; auto. rewrite V by auto. clear.
  rewrite Nat.div_same, Nat.mod_same by (apply Nat.neq_mul_0; split; apply Nat.pow_nonzero; lia).
  rewrite Nat.add_0_r, Nat.mul_1_l.
  assert (E16 : fpow (el 2) (2 ^ 4) = el 2) by (vm_compute; reflexivity).
  assert (E10 : fpow (el 2) (2 ^ 10) = fpow (el 2) 4).
  { replace (2 ^ 10) with (2 ^ 2 * 2 ^ 4 * 2 ^ 4) by (rewrite <- !Nat.pow_add_r; reflexivity).
    rewrite fpow_mul, E16, fpow_mul, E16. reflexivity. }
  rewrite (Nat.mul_comm (2 ^ 10)), (fpow_mul X16 (el 2) (2 ^ 1)), E10. vm_compute. discriminate.
Qed.

Example powers_extension_ex : tabulates X16 1 3 (fpow (el 4)) (powers_extension 1 3 (el 4)).
Proof. apply powers_extension_correct. right. lia. Qed.

Example step_down_ex :
  mv_eval (step_down_poly (3, 5)) (els [3; 9; 12]%N)
  = Ok (mle (fun x => if x <? 5 then f1 else f0) (els [3; 9; 12]%N)).
Proof. apply (proj2 (step_down_correct X16 3 5 ltac:(cbn; lia))). Qed.

Example step_up_extension_ex :
  match step_up_extension (F := X16) 1 (3, 5) with
  | Ok m => map bits (me_evals m) = [0; 0; 0; 0; 0; 1; 1; 1]%N
  | _ => False
  end.
Proof. vm_compute. reflexivity. Qed.

(** A concrete case: the basis of the 16-element field over the two-element field. *)
Example tower_basis_ex :
  match tower_basis_extension 1 2 (2, 0) with
  | Ok m => map (enc 2) (me_evals m) = [1; 2; 4; 8]%N
  | _ => False
  end.
Proof. vm_compute. reflexivity. Qed.

Example tower_basis_narrow_ex : tower_basis_extension 2 2 (1, 0) = Err.
Proof. apply (tower_basis_extension_correct 2 2 1 0). lia. Qed.

(** * C61: serialization of tabulated transparent multilinears *)

(** The number of variables and the table survive when the multilinear is over the 128-bit field
    itself and fills a whole packed element of the smallest subfield that contains its values. *)
Lemma serialize_top values : mlet_serialize 7 values = values.
Proof.
  unfold mlet_serialize. change (2 ^ (7 - 7)) with 1. rewrite Nat.div_1_r.
  apply nth_error_ext. intros i. destruct (Nat.lt_ge_cases i (length values)) as [H|H].
  - rewrite nth_error_map, (nth_error_nth' _ 0) by now rewrite seq_length. rewrite seq_nth by auto. cbn [option_map].
    rewrite Nat.mul_1_r, Nat.add_0_l. destruct (nth_error values i) as [v|] eqn:E.
    + apply nth_error_split in E. destruct E as (l1 & l2 & -> & L). subst i.
      rewrite skipn_app, skipn_all, Nat.sub_diag. cbn [app skipn firstn join_bits].
      now rewrite N.shiftl_0_l, N.lor_0_r.
    + apply nth_error_None in E. lia.
  - rewrite (proj2 (nth_error_None _ _)) by (rewrite map_length, seq_length; auto).
    now rewrite (proj2 (nth_error_None _ _)).
Qed.

Theorem mlet_roundtrip u m values : length values = 2 ^ m -> u - mlet_level values <= m ->
  mlet_deserialize u (mlet_serialize 7 values) = Ok (mlet_level values, m, values).
Proof.
  intros HL Hm. rewrite serialize_top. unfold mlet_deserialize. cbv zeta.
  set (l := mlet_level values) in *. rewrite HL.
  assert (E : 2 ^ m = 2 ^ (m - (u - l)) * 2 ^ (u - l)) by (rewrite <- Nat.pow_add_r; f_equal; lia).
  rewrite E, div_ceil_mul by apply pow2_gt0. unfold is_pow2. rewrite Nat.log2_pow2, Nat.eqb_refl by lia.
  rewrite (proj2 (Nat.ltb_lt _ _)) by apply pow2_gt0. cbn [andb]. rewrite Nat.sub_diag. cbn [repeat].
  rewrite app_nil_r. do 3 f_equal. lia.
Qed.

(** Smaller multilinears come back with more variables. *)
Theorem mlet_roundtrip_narrow_refuted :
  exists u values l n t, length values = 2 ^ 0 /\
    mlet_deserialize u (mlet_serialize 7 values) = Ok (l, n, t) /\ n <> 0.
Proof.
  exists 7, [1%N]. eexists _, _, _. split; [reflexivity|]. split; [vm_compute; reflexivity|]. discriminate.
Qed.

(** Multilinears over a proper subfield come back as another polynomial: runs of scalars are read back
    as single elements.  Here 128 bits with a single one at position 1 become 64 values, the first of
    which is the element with pattern 2. *)
Theorem mlet_roundtrip_subfield_refuted :
  exists u values l n t, length values = 2 ^ 7 /\ nth 0 values 0%N = 0%N /\
    mlet_deserialize u (mlet_serialize 0 values) = Ok (l, n, t) /\ n <> 7 /\ nth 0 t 0%N = 2%N.
Proof.
  exists 7, (0%N :: 1%N :: repeat 0%N 126). eexists _, _, _.
  split; [reflexivity|]. split; [reflexivity|]. split; [vm_compute; reflexivity|]. split; [discriminate|reflexivity].
Qed.

(** Deserialization panics on tables whose number of packed elements is not a power of two, in
    particular on the empty table. *)
Theorem mlet_deserialize_panics u elems :
  mlet_deserialize u elems = Panic <->
  is_pow2 (div_ceil (length elems) (2 ^ (u - mlet_level elems))) = false.
Proof. unfold mlet_deserialize. cbv zeta. destruct (is_pow2 _); split; congruence. Qed.

Example mlet_roundtrip_ex :
  mlet_deserialize 7 (mlet_serialize 7 [2 ^ 100; 5]%N) = Ok (7, 1, [2 ^ 100; 5]%N).
Proof. apply (mlet_roundtrip 7 1); [reflexivity|vm_compute; lia]. Qed.
Example mlet_deserialize_panics_ex : mlet_deserialize 7 [] = Panic.
Proof. apply mlet_deserialize_panics. vm_compute. reflexivity. Qed.
