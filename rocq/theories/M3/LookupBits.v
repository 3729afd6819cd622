(** The limbs in the entries of the lookup tables, and the values of the circuits that tabulate them. *)
Require Import Coq.Arith.Arith Coq.NArith.NArith Coq.Lists.List Coq.Bool.Bool Lia Coq.setoid_ring.Ring.
From Verif Require Import Base.Fld Base.Lists Base.Sums Math.MleSpec Math.ArithModel Math.ArithProofs Math.ArithProps Field.TowerModel Field.TowerProofs Transparent.TowerBasisProps Evalcheck.EvalProofs
  Cs.ChannelModel Cs.FlushModel M3.CompileModel M3.LookupModel.
Import ListNotations.
Local Close Scope N_scope.
Local Open Scope nat_scope.

Section Bits.
  Variable L b : nat.
  Hypothesis HL : b + 2 <= L.
  Notation F := (TF L).
  Notation W := (2 ^ b).
  Add Ring FringB : (f_ring F).
  Notation "x +' y" := (@fadd F x y) (at level 50, left associativity).
  Notation "x *' y" := (@fmul F x y) (at level 40, left associativity).

  Definition fb (x : bool) : F := if x then f1 else f0.
  Lemma nbits_W : N.of_nat W = nbits b.
  Proof. rewrite nbits_pow, Nat2N.inj_pow. reflexivity. Qed.
  Lemma nbits_2W : N.of_nat (2 * W) = nbits (S b).
  Proof. rewrite nbits_S, <- nbits_W. lia. Qed.
  Lemma lor_lxor k (a x : N) : inr k a -> N.lor a (N.shiftl x (nbits k)) = N.lxor a (N.shiftl x (nbits k)).
  Proof.
    intros H. symmetry. apply N.lxor_lor. apply N.bits_inj. intros i. rewrite N.land_spec, N.bits_0. destruct (N.ltb_spec i (nbits k)) as [Hi|Hi].
    - rewrite N.shiftl_spec_low by exact Hi. apply andb_false_r.
    - now rewrite (proj1 (inr_bits k a) H i Hi).
  Qed.

  Lemma basis_1 : ext_basis L b 1 = generator L b.
  Proof. unfold ext_basis, generator. rewrite N.shiftl_1_l, N.mul_1_l, nbits_pow. reflexivity. Qed.
  Lemma basis_2 : ext_basis L b 2 = generator L (S b).
  Proof. unfold ext_basis, generator. rewrite N.shiftl_1_l. f_equal. f_equal. change (N.of_nat 2) with 2%N. rewrite nbits_pow, Nat2N.inj_succ, N.pow_succ_r'. lia. Qed.

  (** Three limbs in one element. *)
  Definition limbs3 (x y z : N) : N := join (S b) (join b x y) z.
  Lemma limbs3_inr x y z : inr b x -> inr b y -> inr (S b) z -> inr L (limbs3 x y z).
  Proof. intros. apply (inr_le (S (S b))); [lia|]. apply join_inr; [now apply join_inr|assumption]. Qed.
  Lemma limbs3_inj x y z x' y' z' : inr b x -> inr b y -> inr (S b) z -> inr b x' -> inr b y' -> inr (S b) z' -> limbs3 x y z = limbs3 x' y' z' -> x = x' /\ y = y' /\ z = z'.
  Proof.
    intros. unfold limbs3 in *. assert (E1 : join b x y = join b x' y') by (rewrite <- (lo_join (S b) (join b x y) z), <- (lo_join (S b) (join b x' y') z'); auto using join_inr, inr_S; congruence).
    assert (E2 : z = z') by (rewrite <- (hi_join (S b) (join b x y) z), <- (hi_join (S b) (join b x' y') z'); auto using join_inr, inr_S; congruence).
    split; [|split; [|exact E2]].
    - rewrite <- (lo_join b x y), <- (lo_join b x' y'); auto; congruence.
    - rewrite <- (hi_join b x y), <- (hi_join b x' y'); auto; congruence.
  Qed.
  Lemma dec_limbs3 x y z : inr b x -> inr b y -> inr (S b) z -> dec L (limbs3 x y z) = dec L x +' dec L y *' ext_basis L b 1 +' dec L z *' ext_basis L b 2.
  Proof.
    intros X Y Z. unfold limbs3, join. rewrite (lor_lxor (S b)) by (apply join_inr; auto). fold (join b x y). change (N.lxor (join b x y) ?v) with (tadd (join b x y) v). rewrite dec_add.
    unfold join. rewrite (lor_lxor b) by auto. change (N.lxor x ?v) with (tadd x v). rewrite dec_add, basis_1, basis_2, !dec_shift; auto using inr_S; lia.
  Qed.
  Lemma merge_and x y z : merge_bitand_vals b x y z = limbs3 x y z.
  Proof. unfold merge_bitand_vals, limbs3, join. now rewrite nbits_W, nbits_2W. Qed.
  Definition pair_bits (ci co : bool) : N := N.lor (N.b2n ci) (N.shiftl (N.b2n co) 1).
  Lemma pair_inr ci co : inr (S b) (pair_bits ci co).
  Proof. apply (inr_le 1 (S b)); [lia|]. destruct ci, co; reflexivity. Qed.
  Lemma merge_incr x ci y co : merge_incr_vals b x ci y co = limbs3 x y (pair_bits ci co).
  Proof.
    unfold merge_incr_vals, limbs3, join, pair_bits. rewrite nbits_W, Nat2N.inj_add, nbits_2W. change (N.of_nat 1) with 1%N.
    apply N.bits_inj. intros i. rewrite !N.lor_spec. rewrite N.shiftl_lor, N.lor_spec, N.shiftl_shiftl, (N.add_comm 1).
    destruct (N.testbit x i), (N.testbit (N.shiftl y (nbits b)) i), (N.testbit (N.shiftl (N.b2n ci) _) i), (N.testbit (N.shiftl (N.b2n co) _) i); reflexivity.
  Qed.
  Lemma dec_pair ci co : dec L (pair_bits ci co) = fb ci +' fb co *' ext_basis L 0 1.
  Proof.
    unfold ext_basis, pair_bits. change (N.of_nat 1 * nbits 0)%N with 1%N. change (N.shiftl 1 1) with 2%N. destruct ci, co; cbn [N.b2n fb].
    - change (N.lor 1 (N.shiftl 1 1)) with (tadd 1 2). rewrite dec_add, dec_1. ring.
    - change (N.lor 1 (N.shiftl 0 1)) with 1%N. rewrite dec_1. ring.
    - change (N.lor 0 (N.shiftl 1 1)) with 2%N. ring.
    - change (N.lor 0 (N.shiftl 0 1)) with 0%N. rewrite dec_0. ring.
  Qed.

  (** * Sums of bits *)
  Fixpoint bits_num (k : nat) (g : nat -> bool) : N := match k with O => 0%N | S k => N.lxor (bits_num k g) (N.shiftl (N.b2n (g k)) (N.of_nat k)) end.
  Lemma bits_num_spec k g i : N.testbit (bits_num k g) (N.of_nat i) = (i <? k) && g i.
  Proof.
    induction k as [|k IH]; [apply N.bits_0|]. cbn [bits_num]. rewrite N.lxor_spec, IH. destruct (Nat.lt_trichotomy i k) as [H|[->|H]].
    - rewrite N.shiftl_spec_low by lia. rewrite !(proj2 (Nat.ltb_lt _ _)) by lia. now rewrite xorb_false_r.
    - rewrite N.shiftl_spec_high' by lia. rewrite N.sub_diag, N.b2n_bit0, Nat.ltb_irrefl, (proj2 (Nat.ltb_lt _ _)) by lia. now destruct (g k).
    - rewrite N.shiftl_spec_high' by lia. rewrite !(proj2 (Nat.ltb_ge _ _)) by lia. replace (N.of_nat i - N.of_nat k)%N with (N.succ (N.of_nat (i - k - 1))) by lia.
      destruct (g k); cbn [N.b2n]; [|rewrite N.bits_0; reflexivity]. rewrite N.bits_above_log2 by (change (N.log2 1) with 0%N; lia). reflexivity.
  Qed.
  Lemma bits_num_eq k g (m : N) : (m < 2 ^ N.of_nat k)%N -> (forall i, i < k -> N.testbit m (N.of_nat i) = g i) -> bits_num k g = m.
  Proof.
    intros Hm H. apply N.bits_inj. intros i. rewrite <- (N2Nat.id i). rewrite bits_num_spec. destruct (Nat.ltb_spec (N.to_nat i) k) as [Hi|Hi]; [symmetry; now apply H|].
    symmetry. destruct (N.eq_dec m 0) as [->|NZ]; [apply N.bits_0|]. apply N.bits_above_log2. apply N.log2_lt_pow2; [lia|]. eapply N.lt_le_trans; [exact Hm|]. apply N.pow_le_mono_r; lia.
  Qed.
  Lemma sum_bits k off g : sumn k (fun i => fb (g i) *' dec L (N.shiftl 1 (N.of_nat (i + off)))) = dec L (N.shiftl (bits_num k g) (N.of_nat off)).
  Proof.
    induction k as [|k IH]; [rewrite sumn_0; cbn [bits_num]; now rewrite N.shiftl_0_l, dec_0|]. rewrite sumn_S, IH. cbn [bits_num]. rewrite N.shiftl_lxor.
    change (N.lxor ?u ?v) with (tadd u v). rewrite dec_add. f_equal. rewrite N.shiftl_shiftl, Nat2N.inj_add. destruct (g k); cbn [fb N.b2n]; [ring|]. rewrite N.shiftl_0_l, dec_0. ring.
  Qed.

  (** * Circuits *)
  Definition gives (q : list F) (c : circuit F) (v : F) : Prop := cwf F c /\ evaluate c q = Some v.
  Lemma gives_const q v : gives q (cconst v) v.
  Proof. split; [apply circuits_wf|reflexivity]. Qed.
  Lemma gives_var q i v : nth_error q i = Some v -> gives q (cvar i) v.
  Proof. intros E. split; [apply circuits_wf|]. unfold evaluate, evals, cvar. cbn [ofold step_val]. now rewrite E. Qed.
  Lemma gives_add q a c x y : gives q a x -> gives q c y -> gives q (cadd a c) (x +' y).
  Proof. intros [A1 A2] [C1 C2]. split; [now apply circuits_wf|]. now apply (circuit_ops F q a c x y 0%N A1 C1 A2 C2). Qed.
  Lemma gives_mul q a c x y : gives q a x -> gives q c y -> gives q (cmul a c) (x *' y).
  Proof. intros [A1 A2] [C1 C2]. split; [now apply circuits_wf|]. now apply (circuit_ops F q a c x y 0%N A1 C1 A2 C2). Qed.
  Lemma gives_csum q l vs : Forall2 (gives q) l vs -> gives q (csum l) (fsum vs).
  Proof.
    unfold csum. intros H. assert (G : forall l vs, Forall2 (gives q) l vs -> forall c v, gives q c v -> gives q (fold_left cadd l c) (v +' fsum vs)).
    { clear. induction 1 as [|a x l vs Ha H IH]; intros c v Hc; cbn [fold_left fsum fold_right]; [replace (v +' f0) with v by ring; exact Hc|].
      fold (fsum vs). replace (v +' (x +' fsum vs)) with (v +' x +' fsum vs) by ring. apply IH. now apply gives_add. }
    replace (fsum vs) with (f0 +' fsum vs) by ring. apply G; [exact H|apply gives_const].
  Qed.
  Lemma forall2_flat {A} (P : circuit F -> F -> Prop) (f : A -> list (circuit F)) (g : A -> list F) l : (forall a, In a l -> Forall2 P (f a) (g a)) -> Forall2 P (flat_map f l) (flat_map g l).
  Proof. intros H. induction l as [|a l IH]; cbn [flat_map]; [constructor|]. apply Forall2_app; [apply H; now left|apply IH; intros; apply H; now right]. Qed.
  Lemma fsum_flat3 (f g h : nat -> F) l : fsum (flat_map (fun i => [f i; g i; h i]) l) = fsum (map f l) +' fsum (map g l) +' fsum (map h l).
  Proof. induction l as [|a l IH]; cbn [flat_map map fsum fold_right]; [ring|]. cbn [app fsum fold_right]. fold (fsum (flat_map (fun i => [f i; g i; h i]) l)) (fsum (map f l)) (fsum (map g l)) (fsum (map h l)). rewrite IH. ring. Qed.
  Lemma fsum_flat2 (f g : nat -> F) l : fsum (flat_map (fun i => [f i; g i]) l) = fsum (map f l) +' fsum (map g l).
  Proof. induction l as [|a l IH]; cbn [flat_map map fsum fold_right]; [ring|]. cbn [app fsum fold_right]. fold (fsum (flat_map (fun i => [f i; g i]) l)) (fsum (map f l)) (fsum (map g l)). rewrite IH. ring. Qed.

  Lemma vertex_bit n : forall r i, i < n -> nth_error (vertex (F := F) n r) i = Some (fb (Nat.testbit r i)).
  Proof.
    induction n as [|n IH]; intros r i Hi; [lia|]. destruct i as [|i]; cbn [vertex nth_error]; [reflexivity|]. rewrite IH by lia. rewrite <- Nat.div2_div. reflexivity.
  Qed.
  Lemma testbit_of_nat r i : N.testbit (N.of_nat r) (N.of_nat i) = Nat.testbit r i.
  Proof.
    rewrite Ntestbit_Nbit. revert r. induction i as [|i IH]; intros r.
    - rewrite <- Ntestbit_Nbit. change (N.of_nat 0) with 0%N. rewrite N.bit0_odd. cbn [Nat.testbit]. apply eq_true_iff_eq. rewrite N.odd_spec, Nat.odd_spec.
      split; intros [m Hm]; [exists (N.to_nat m); lia|exists (N.of_nat m); lia].
    - rewrite <- Ntestbit_Nbit, Nat2N.inj_succ, N.testbit_succ_r_div2 by lia. cbn [Nat.testbit]. rewrite Ntestbit_Nbit. rewrite <- IH. f_equal. rewrite N.div2_div, Nat.div2_div. now rewrite (Nat2N.inj_div r 2).
  Qed.

  (** * The table of bitwise conjunctions *)
  Lemma limb_lt k x : inr k x <-> (x < 2 ^ N.of_nat (2 ^ k))%N.
  Proof. unfold inr. rewrite Nat2N.inj_pow. reflexivity. Qed.
  Lemma lo_num (r : N) : bits_num W (fun i => N.testbit r (N.of_nat i)) = lo b r.
  Proof. apply bits_num_eq; [apply limb_lt, lo_inr|]. intros i Hi. rewrite lo_bit, <- nbits_W, (proj2 (N.ltb_lt _ _)) by lia. apply andb_true_r. Qed.
  Lemma hi_num (r : N) : bits_num W (fun i => N.testbit r (N.of_nat (i + W))) = hi b r.
  Proof. apply bits_num_eq; [apply limb_lt, hi_inr|]. intros i Hi. rewrite hi_bit, <- nbits_W, (proj2 (N.ltb_lt _ _)), Nat2N.inj_add by lia. apply andb_true_r. Qed.
  Lemma land_inr x y : inr b x -> inr b (N.land x y).
  Proof. rewrite !inr_bits. intros H i Hi. rewrite N.land_spec, H by exact Hi. reflexivity. Qed.
  Lemma and_num (r : N) : bits_num W (fun i => N.testbit r (N.of_nat i) && N.testbit r (N.of_nat (i + W))) = N.land (lo b r) (hi b r).
  Proof.
    apply bits_num_eq; [apply limb_lt, land_inr, lo_inr|]. intros i Hi. rewrite N.land_spec, lo_bit, hi_bit, <- nbits_W, (proj2 (N.ltb_lt _ _)), Nat2N.inj_add by lia. now rewrite !andb_true_r.
  Qed.

  Lemma and_fb x y : fb x *' fb y = fb (x && y).
  Proof. destruct x, y; cbn [fb andb]; ring. Qed.
  Lemma xor_fb x y : fb x +' fb y = fb (xorb x y).
  Proof. destruct x, y; cbn [fb xorb]; try ring. apply TF_char2. Qed.
  Lemma limbs3_xor x y z : inr b x -> inr b y -> dec L (limbs3 x y z) = dec L x +' dec L (N.shiftl y (N.of_nat W)) +' dec L (N.shiftl z (N.of_nat (2 * W))).
  Proof.
    intros X Y. rewrite nbits_W, nbits_2W. unfold limbs3, join. rewrite (lor_lxor (S b)) by (apply join_inr; auto). fold (join b x y). change (N.lxor (join b x y) ?v) with (tadd (join b x y) v). rewrite dec_add.
    unfold join. rewrite (lor_lxor b) by auto. change (N.lxor x ?v) with (tadd x v). now rewrite dec_add.
  Qed.

  Definition and_entry (r : nat) : N := let x := lo b (N.of_nat r) in let y := hi b (N.of_nat r) in limbs3 x y (N.land x y).
  Lemma bitand_table r : gives (vertex (2 * W) r) (bitand_circuit L b) (dec L (and_entry r)).
  Proof.
    set (q := vertex (2 * W) r). set (g := fun i => N.testbit (N.of_nat r) (N.of_nat i)).
    assert (V : forall i, i < 2 * W -> gives q (cvar i) (fb (g i))).
    { intros i Hi. apply gives_var. unfold q, g. rewrite vertex_bit by exact Hi. now rewrite testbit_of_nat. }
    set (f1' := fun i => fb (g i) *' dec L (N.shiftl 1 (N.of_nat i))). set (f2' := fun i => fb (g (i + W)) *' dec L (N.shiftl 1 (N.of_nat (i + W)))).
    set (f3' := fun i => fb (g i && g (i + W)) *' dec L (N.shiftl 1 (N.of_nat (i + 2 * W)))).
    assert (G : gives q (bitand_circuit L b) (fsum (flat_map (fun i => [f1' i; f2' i; f3' i]) (seq 0 W)))).
    { apply gives_csum. apply forall2_flat. intros i Hi. apply in_seq in Hi. unfold bit_const. constructor; [|constructor; [|constructor; [|constructor]]].
      - apply gives_mul; [apply V; lia|apply gives_const].
      - apply gives_mul; [apply V; lia|apply gives_const].
      - unfold f3'. rewrite <- and_fb. apply gives_mul; [apply gives_mul; apply V; lia|apply gives_const]. }
    rewrite fsum_flat3 in G. fold (sumn W f1') (sumn W f2') (sumn W f3') in G.
    assert (E1 : sumn W f1' = dec L (N.shiftl (bits_num W g) (N.of_nat 0))).
    { rewrite <- sum_bits. apply sumn_ext. intros i _. unfold f1'. now rewrite Nat.add_0_r. }
    assert (E2 : sumn W f2' = dec L (N.shiftl (bits_num W (fun i => g (i + W))) (N.of_nat W))) by (rewrite <- sum_bits; reflexivity).
    assert (E3 : sumn W f3' = dec L (N.shiftl (bits_num W (fun i => g i && g (i + W))) (N.of_nat (2 * W)))) by (rewrite <- sum_bits; reflexivity).
    rewrite E1, E2, E3 in G. unfold g in G. rewrite lo_num, hi_num, and_num, N.shiftl_0_r in G. unfold and_entry. cbv zeta. rewrite limbs3_xor by auto using lo_inr, hi_inr. exact G.
  Qed.

  (** * The table of increments *)
  Definition carries (x : N) (c : bool) (i : nat) : bool := c && forallb (fun v => N.testbit x (N.of_nat v)) (seq 0 i).
  Lemma carries_S x c i : carries x c (S i) = carries x c i && N.testbit x (N.of_nat i).
  Proof. unfold carries. rewrite seq_S, forallb_app. cbn [forallb Nat.add]. rewrite andb_true_r. apply andb_assoc. Qed.
  Lemma carries_div x c i : ((x + N.b2n c) / 2 ^ N.of_nat i = x / 2 ^ N.of_nat i + N.b2n (carries x c i))%N.
  Proof.
    induction i as [|i IH].
    - change (2 ^ N.of_nat 0)%N with 1%N. rewrite !N.div_1_r. unfold carries. cbn [seq forallb]. now rewrite andb_true_r.
    - rewrite carries_S, Nat2N.inj_succ, N.pow_succ_r', (N.mul_comm 2), <- !N.div_div by (try apply N.pow_nonzero; lia). rewrite IH.
      assert (T : N.testbit x (N.of_nat i) = N.odd (x / 2 ^ N.of_nat i)) by (rewrite <- N.shiftr_div_pow2, <- N.bit0_odd, N.shiftr_spec', N.add_0_l; reflexivity). rewrite T.
      set (y := (x / 2 ^ N.of_nat i)%N). clearbody y. rewrite <- !N.div2_div. pose proof (N.div2_odd y) as D. destruct (N.odd y); destruct (carries x c i); cbn [N.b2n andb] in *.
      + rewrite D. replace (2 * N.div2 y + 1 + 1)%N with (2 * (N.div2 y + 1))%N by lia. rewrite !N.div2_div, N.mul_comm, N.div_mul by lia. rewrite <- (N.div2_div y).
        replace ((2 * N.div2 y + 1) / 2)%N with (N.div2 y); [reflexivity|]. apply (N.div_unique _ 2 _ 1); lia.
      + rewrite !N.add_0_r. reflexivity.
      + rewrite N.add_0_r in D |- *. rewrite !N.div2_div. symmetry. apply (N.div_unique _ 2 _ 1); [lia|]. rewrite <- N.div2_div. lia.
      + rewrite !N.add_0_r. reflexivity.
  Qed.
  Lemma incr_bit x c i : N.testbit (x + N.b2n c) (N.of_nat i) = xorb (N.testbit x (N.of_nat i)) (carries x c i).
  Proof.
    assert (T : forall y, N.testbit y (N.of_nat i) = N.odd (y / 2 ^ N.of_nat i)) by (intros y; rewrite <- N.shiftr_div_pow2, <- N.bit0_odd, N.shiftr_spec', N.add_0_l; reflexivity).
    rewrite !T, carries_div, N.odd_add. destruct (carries x c i); reflexivity.
  Qed.

  Definition incr_entry (r : nat) : N :=
    let x := lo b (N.of_nat r) in let c := N.testbit (N.of_nat r) (N.of_nat W) in let s := (x + N.b2n c)%N in limbs3 x (lo b s) (pair_bits c (N.leb (2 ^ N.of_nat W) s)).
  Lemma carries_lo x c i : i <= W -> carries (lo b x) c i = carries x c i.
  Proof.
    intros H. unfold carries. f_equal. induction i as [|i IH]; [reflexivity|]. rewrite seq_S, !forallb_app, IH by lia. cbn [forallb Nat.add]. rewrite lo_bit, <- nbits_W, (proj2 (N.ltb_lt _ _)) by lia. now rewrite andb_true_r.
  Qed.
  Lemma carry_out_W x c : inr b x -> N.leb (2 ^ N.of_nat W) (x + N.b2n c) = carries x c W.
  Proof.
    intros H. apply limb_lt in H. pose proof (carries_div x c W) as E. rewrite (N.div_small x) in E by exact H. set (P := (2 ^ N.of_nat W)%N) in *. assert (HP : P <> 0%N) by (apply N.pow_nonzero; lia).
    destruct (carries x c W); cbn [N.b2n] in E.
    - apply N.leb_le. destruct (N.le_gt_cases P (x + N.b2n c)) as [G|G]; [exact G|]. rewrite N.div_small in E by exact G. lia.
    - apply N.leb_gt. destruct (N.le_gt_cases P (x + N.b2n c)) as [G|G]; [|exact G]. apply (N.div_le_mono _ _ P) in G; [|exact HP]. rewrite N.div_same in G by exact HP. lia.
  Qed.
  Lemma carry_gives r i : i <= W -> gives (vertex (W + 1) r) (carry_in_circuit L b i) (fb (carries (N.of_nat r) (N.testbit (N.of_nat r) (N.of_nat W)) i)).
  Proof.
    set (q := vertex (W + 1) r). assert (V : forall i, i < W + 1 -> gives q (cvar i) (fb (N.testbit (N.of_nat r) (N.of_nat i)))).
    { intros j Hj. apply gives_var. unfold q. rewrite vertex_bit by exact Hj. now rewrite testbit_of_nat. }
    unfold carry_in_circuit. induction i as [|i IH]; intros Hi.
    - cbn [seq map fold_left]. unfold carries. cbn [seq forallb]. rewrite andb_true_r. apply V. lia.
    - rewrite seq_S, map_app, fold_left_app. cbn [map fold_left Nat.add]. rewrite carries_S, <- and_fb. apply gives_mul; [apply IH; lia|apply V; lia].
  Qed.

  Lemma incr_table r : gives (vertex (W + 1) r) (incr_circuit L b) (dec L (incr_entry r)).
  Proof.
    set (q := vertex (W + 1) r). set (R := N.of_nat r). set (c := N.testbit R (N.of_nat W)). set (g := fun i => N.testbit R (N.of_nat i)).
    assert (V : forall i, i < W + 1 -> gives q (cvar i) (fb (g i))).
    { intros i Hi. apply gives_var. unfold q, g, R. rewrite vertex_bit by exact Hi. now rewrite testbit_of_nat. }
    set (f1' := fun i => fb (g i) *' dec L (N.shiftl 1 (N.of_nat i))). set (f2' := fun i => fb (xorb (g i) (carries R c i)) *' dec L (N.shiftl 1 (N.of_nat (i + W)))).
    set (v3 := fb c *' dec L (N.shiftl 1 (N.of_nat (2 * W)))). set (v4 := fb (carries R c W) *' dec L (N.shiftl 1 (N.of_nat (2 * W + 1)))).
    assert (G : gives q (incr_circuit L b) (fsum (flat_map (fun i => [f1' i; f2' i]) (seq 0 W) ++ [v3; v4]))).
    { apply gives_csum. apply Forall2_app.
      - apply forall2_flat. intros i Hi. apply in_seq in Hi. unfold bit_const. constructor; [|constructor; [|constructor]].
        + apply gives_mul; [apply V; lia|apply gives_const].
        + unfold f2'. rewrite <- xor_fb. apply gives_mul; [apply gives_add; [apply V; lia|apply carry_gives; lia]|apply gives_const].
      - constructor; [|constructor; [|constructor]]; (apply gives_mul; [|apply gives_const]); [apply V; lia|apply carry_gives; lia]. }
    rewrite fsum_app, fsum_flat2 in G. fold (sumn W f1') (sumn W f2') in G. cbn [fsum fold_right] in G.
    assert (E1 : sumn W f1' = dec L (N.shiftl (bits_num W g) (N.of_nat 0))).
    { rewrite <- sum_bits. apply sumn_ext. intros i _. unfold f1'. now rewrite Nat.add_0_r. }
    assert (E2 : sumn W f2' = dec L (N.shiftl (bits_num W (fun i => xorb (g i) (carries R c i))) (N.of_nat W))) by (rewrite <- sum_bits; reflexivity).
    assert (E3 : bits_num W (fun i => xorb (g i) (carries R c i)) = lo b (lo b R + N.b2n c)).
    { apply bits_num_eq; [apply limb_lt, lo_inr|]. intros i Hi. rewrite lo_bit, incr_bit, carries_lo by lia. rewrite lo_bit, <- nbits_W, (proj2 (N.ltb_lt _ _)) by lia. now rewrite !andb_true_r. }
    unfold g in E1. rewrite lo_num, N.shiftl_0_r in E1. rewrite E3 in E2. rewrite E1, E2 in G.
    assert (E4 : v3 +' (v4 +' f0) = dec L (N.shiftl (pair_bits c (carries R c W)) (N.of_nat (2 * W)))).
    { unfold v3, v4. rewrite Nat2N.inj_add. change (N.of_nat 1) with 1%N. rewrite (N.add_comm _ 1), <- N.shiftl_shiftl. unfold pair_bits.
      assert (A : N.lor (N.b2n c) (N.shiftl (N.b2n (carries R c W)) 1) = N.lxor (N.b2n c) (N.shiftl (N.b2n (carries R c W)) 1)) by (destruct c, (carries R _ W); reflexivity). rewrite A, N.shiftl_lxor.
      change (N.lxor ?u ?v) with (tadd u v). rewrite dec_add. destruct c, (carries R _ W); cbn [fb N.b2n]; rewrite ?N.shiftl_0_l, ?dec_0; ring. }
    rewrite E4 in G. unfold incr_entry. cbv zeta. fold R c. rewrite carry_out_W, carries_lo by (auto using lo_inr; lia). rewrite limbs3_xor by auto using lo_inr. exact G.
  Qed.

  (** * Indices *)
  Lemma pow_2W : 2 ^ (2 * W) = N.to_nat (2 ^ N.of_nat (2 * W))%N.
  Proof. rewrite <- (Nat2N.id (2 ^ (2 * W))), Nat2N.inj_pow. reflexivity. Qed.
  Lemma index_inr r : r < 2 ^ (2 * W) <-> inr (S b) (N.of_nat r).
  Proof. rewrite inr_nbits, <- nbits_2W, pow_2W. lia. Qed.
  Lemma and_index r : bitand_index_to_entry L b r = [dec L (and_entry r)].
  Proof. unfold bitand_index_to_entry, and_entry. cbv zeta. rewrite merge_and, nbits_W. reflexivity. Qed.
  Lemma and_entry_inr r : inr L (and_entry r).
  Proof. apply limbs3_inr; auto using lo_inr, hi_inr, land_inr, inr_S. Qed.
  Lemma and_index_of r : r < 2 ^ (2 * W) -> bitand_entry_to_index L b [dec L (and_entry r)] = r.
  Proof.
    intros H. apply index_inr in H. unfold bitand_entry_to_index. cbn [nth]. rewrite enc_dec by apply and_entry_inr. rewrite nbits_2W. change (N.land ?x (N.ones (nbits (S b)))) with (lo (S b) x).
    unfold and_entry, limbs3. rewrite lo_join by (auto using join_inr, lo_inr, hi_inr, inr_S, land_inr). rewrite join_lo_hi by exact H. apply Nat2N.id.
  Qed.
  Lemma and_entries a c o : inr b a -> inr b c -> inr b o -> (exists r, r < 2 ^ (2 * W) /\ dec L (limbs3 a c o) = dec L (and_entry r)) <-> o = N.land a c.
  Proof.
    intros A C O. split.
    - intros (r & Hr & E). apply dec_inj in E; [|apply limbs3_inr; auto using inr_S|apply and_entry_inr]. unfold and_entry in E. apply limbs3_inj in E as (-> & -> & ->); auto using lo_inr, hi_inr, land_inr, inr_S.
    - intros ->. exists (N.to_nat (join b a c)). split; [apply index_inr; rewrite N2Nat.id; now apply join_inr|]. unfold and_entry. cbv zeta. rewrite N2Nat.id, lo_join, hi_join by auto. reflexivity.
  Qed.

  Lemma land_mod_W x : N.land x (N.ones (N.of_nat W)) = lo b x.
  Proof. now rewrite nbits_W. Qed.
  Lemma mod_lo x : (x mod 2 ^ N.of_nat W)%N = lo b x.
  Proof. rewrite <- N.land_ones. apply land_mod_W. Qed.
  Lemma incr_index r : incr_index_to_entry L b r = [dec L (incr_entry r)].
  Proof. unfold incr_index_to_entry, incr_entry, overflowing_add. cbv zeta. rewrite merge_incr, N.shiftl_1_l, mod_lo, land_mod_W. reflexivity. Qed.
  Lemma incr_entry_inr r : inr L (incr_entry r).
  Proof. apply limbs3_inr; auto using lo_inr, pair_inr. Qed.
  Lemma pow_W1 : (2 ^ N.of_nat (W + 1) = 2 * 2 ^ N.of_nat W)%N.
  Proof. rewrite Nat2N.inj_add, N.pow_add_r. change (2 ^ N.of_nat 1)%N with 2%N. lia. Qed.
  Lemma top_bit r : r < 2 ^ (W + 1) -> N.of_nat r = N.lor (N.shiftl (N.b2n (N.testbit (N.of_nat r) (N.of_nat W))) (N.of_nat W)) (lo b (N.of_nat r)).
  Proof.
    intros H. apply N.bits_inj. intros i. rewrite N.lor_spec, lo_bit, <- nbits_W. destruct (N.lt_trichotomy i (N.of_nat W)) as [Hi|[->|Hi]].
    - rewrite N.shiftl_spec_low, (proj2 (N.ltb_lt _ _)) by lia. cbn [orb]. now rewrite andb_true_r.
    - rewrite N.shiftl_spec_high' by lia. rewrite N.sub_diag, N.b2n_bit0, N.ltb_irrefl, andb_false_r. now rewrite orb_false_r.
    - rewrite N.shiftl_spec_high' by lia. rewrite (proj2 (N.ltb_ge _ _)), andb_false_r, orb_false_r by lia.
      assert (HR : (N.of_nat r < 2 ^ N.of_nat (W + 1))%N).
      { change 2%N with (N.of_nat 2). rewrite <- Nat2N.inj_pow. lia. }
      transitivity false; [|symmetry].
      + destruct (N.eq_dec (N.of_nat r) 0) as [->|NZ]; [apply N.bits_0|]. apply N.bits_above_log2. apply N.log2_lt_pow2; [lia|]. eapply N.lt_le_trans; [exact HR|]. apply N.pow_le_mono_r; lia.
      + destruct (N.testbit (N.of_nat r) _); cbn [N.b2n]; [|apply N.bits_0]. apply N.bits_above_log2. change (N.log2 1) with 0%N. lia.
  Qed.
  Lemma pair_bit0 ci co : N.testbit (pair_bits ci co) 0 = ci.
  Proof. destruct ci, co; reflexivity. Qed.
  Lemma incr_index_of r : r < 2 ^ (W + 1) -> incr_entry_to_index L b [dec L (incr_entry r)] = r.
  Proof.
    intros H. unfold incr_entry_to_index. cbn [nth]. cbv zeta. rewrite enc_dec by apply incr_entry_inr. rewrite land_mod_W. unfold incr_entry. cbv zeta. set (x := lo b (N.of_nat r)). set (c := N.testbit (N.of_nat r) (N.of_nat W)).
    set (y := lo b _). set (z := pair_bits c _). assert (X : inr b x) by apply lo_inr. assert (Y : inr b y) by apply lo_inr. assert (Z : inr (S b) z) by apply pair_inr.
    assert (E1 : lo b (limbs3 x y z) = x).
    { unfold limbs3. rewrite <- (lo_join b x y) at 2 by auto. rewrite <- (lo_join (S b) (join b x y) z) at 2 by auto using join_inr, inr_S. apply N.bits_inj. intros i. rewrite !lo_bit, nbits_S. pose proof (nbits_pos b).
      destruct (N.ltb_spec i (nbits b)); [|now rewrite !andb_false_r]. rewrite (proj2 (N.ltb_lt i (nbits b + nbits b))) by lia. now rewrite !andb_true_r. }
    assert (E2 : N.testbit (limbs3 x y z) (N.of_nat (2 * W)) = c).
    { rewrite nbits_2W. unfold limbs3. rewrite join_bit, N.leb_refl, N.sub_diag, (proj1 (inr_bits (S b) _) (join_inr b x y X Y)) by lia. apply pair_bit0. }
    rewrite E1, E2. unfold x, c. rewrite <- top_bit by exact H. apply Nat2N.id.
  Qed.
  Lemma pair_inj ci co ci' co' : pair_bits ci co = pair_bits ci' co' -> ci = ci' /\ co = co'.
  Proof. destruct ci, co, ci', co'; intros E; try discriminate E; auto. Qed.
  Lemma incr_meets x ci o co : inr b x -> inr b o -> ((o + 2 ^ N.of_nat W * N.b2n co = x + N.b2n ci)%N <-> o = lo b (x + N.b2n ci) /\ co = N.leb (2 ^ N.of_nat W) (x + N.b2n ci)).
  Proof.
    intros X O. apply limb_lt in X, O. rewrite <- mod_lo. set (P := (2 ^ N.of_nat W)%N) in *. assert (HP : (1 <= P)%N) by (destruct P; lia). set (s := (x + N.b2n ci)%N). assert (HS : (s < 2 * P)%N) by (unfold s; destruct ci; cbn [N.b2n]; lia). split.
    - intros E. destruct co; cbn [N.b2n] in E.
      + assert (HPs : (P <= s)%N) by lia. rewrite (proj2 (N.leb_le _ _) HPs). split; [|reflexivity]. apply (N.mod_unique s P 1); lia.
      + assert (HPs : (s < P)%N) by lia. rewrite (proj2 (N.leb_gt _ _) HPs). split; [|reflexivity]. rewrite N.mod_small by exact HPs. lia.
    - intros [-> ->]. destruct (N.leb_spec P s) as [G|G]; cbn [N.b2n].
      + rewrite <- (N.mod_unique s P 1 (s - P)); lia.
      + rewrite N.mod_small by exact G. lia.
  Qed.
  Lemma incr_entries x ci o co : inr b x -> inr b o ->
    (exists r, r < 2 ^ (W + 1) /\ dec L (limbs3 x o (pair_bits ci co)) = dec L (incr_entry r)) <-> (o + 2 ^ N.of_nat W * N.b2n co = x + N.b2n ci)%N.
  Proof.
    intros X O. rewrite incr_meets by auto. split.
    - intros (r & Hr & E). apply dec_inj in E; [|apply limbs3_inr; auto using pair_inr|apply incr_entry_inr]. unfold incr_entry in E. cbv zeta in E.
      apply limbs3_inj in E as (-> & -> & E); auto using lo_inr, pair_inr. apply pair_inj in E as [-> ->]. auto.
    - intros [-> ->]. set (m := N.lor (N.shiftl (N.b2n ci) (N.of_nat W)) x).
      assert (B : forall i, N.testbit m i = if (i <? N.of_nat W)%N then N.testbit x i else (i =? N.of_nat W)%N && ci).
      { intros i. unfold m. rewrite N.lor_spec. rewrite inr_bits in X. destruct (N.ltb_spec i (N.of_nat W)) as [Hi|Hi].
        - now rewrite N.shiftl_spec_low.
        - rewrite N.shiftl_spec_high' by lia. rewrite X by (rewrite <- nbits_W; lia). rewrite orb_false_r. destruct (N.eqb_spec i (N.of_nat W)) as [->|NE]; [now rewrite N.sub_diag, N.b2n_bit0|].
          destruct ci; cbn [N.b2n]; [|now rewrite N.bits_0]. rewrite N.bits_above_log2 by (change (N.log2 1) with 0%N; lia). reflexivity. }
      assert (M1 : lo b m = x).
      { apply N.bits_inj. intros i. rewrite lo_bit, B, <- nbits_W. destruct (N.ltb_spec i (N.of_nat W)) as [Hi|Hi]; [apply andb_true_r|]. rewrite andb_false_r. symmetry. apply (proj1 (inr_bits b x) X). rewrite <- nbits_W. exact Hi. }
      assert (M2 : N.testbit m (N.of_nat W) = ci) by (rewrite B, N.ltb_irrefl, N.eqb_refl; reflexivity).
      exists (N.to_nat m). split.
      + assert (HM : (m < 2 ^ N.of_nat (W + 1))%N).
        { destruct (N.eq_dec m 0) as [->|NZ]; [apply N.neq_0_lt_0, N.pow_nonzero; lia|]. apply N.log2_lt_pow2; [lia|]. apply N.lt_nge. intros G. assert (T : N.testbit m (N.log2 m) = true) by now apply N.bit_log2.
          rewrite B in T. destruct (N.ltb_spec (N.log2 m) (N.of_nat W)); [lia|]. destruct (N.eqb_spec (N.log2 m) (N.of_nat W)); [lia|discriminate]. }
        rewrite <- (Nat2N.id (2 ^ (W + 1))), Nat2N.inj_pow. change (N.of_nat 2) with 2%N. lia.
      + unfold incr_entry. cbv zeta. rewrite N2Nat.id, M1, M2. reflexivity.
  Qed.
End Bits.
