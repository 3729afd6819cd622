(** C20: matrix inversion and multiplication. *)
Require Import Coq.NArith.NArith Coq.setoid_ring.Ring Coq.Arith.Arith Coq.Lists.List Coq.Bool.Bool Lia.
From Verif Require Import Base.Fld Base.Lists Base.Sums Math.MleModel Math.MleProofs Math.MatrixModel Field.Examples.
Import ListNotations.
Local Close Scope N_scope.
Local Open Scope nat_scope.

Lemma splice_nth {A} (dst src : list A) pos x d : pos + length src <= length dst ->
  nth x (splice dst pos src) d =
  if (pos <=? x) && (x <? pos + length src) then nth (x - pos) src d else nth x dst d.
Proof.
  intros H. unfold splice.
  assert (L : length (firstn pos dst) = pos) by (rewrite firstn_length; lia).
  destruct (Nat.leb_spec pos x) as [H1|H1]; cbn [andb].
  - rewrite app_nth2 by lia. rewrite L. destruct (Nat.ltb_spec x (pos + length src)).
    + rewrite app_nth1 by lia. reflexivity.
    + rewrite app_nth2 by lia. rewrite nth_skipn'. f_equal. lia.
  - rewrite app_nth1 by lia. now apply nth_firstn_lt.
Qed.

Lemma splice_length {A} (dst src : list A) pos : pos + length src <= length dst ->
  length (splice dst pos src) = length dst.
Proof. intros. unfold splice. rewrite !app_length, firstn_length, skipn_length. lia. Qed.

Lemma rm_index i j i' j' n : j < n -> j' < n -> i * n + j = i' * n + j' -> i = i' /\ j = j'.
Proof.
  intros H H' E.
  assert (i = i').
  { rewrite (Nat.div_unique (i * n + j) n i j), (Nat.div_unique (i' * n + j') n i' j'); try lia. congruence. }
  subst. lia.
Qed.

Section Props.
  Variable F : field.
  Local Open Scope fld_scope.
  Add Ring Fring : (f_ring F).

  (* ---------------------------------------------------------------- *)
  (** Specification: matrices as functions of two indices. *)
  Definition mmul (n : nat) (A B : nat -> nat -> F) (i j : nat) : F := sumn n (fun k => A i k * B k j).
  Definition idm (i j : nat) : F := if (i =? j)%nat then 1 else 0.
  Definition meq (n : nat) (A B : nat -> nat -> F) : Prop :=
    forall i j, (i < n)%nat -> (j < n)%nat -> A i j = B i j.
  (** A square matrix is singular when it maps some nonzero vector to zero. *)
  Definition singular (n : nat) (A : nat -> nat -> F) : Prop :=
    exists v : nat -> F, (exists j, (j < n)%nat /\ v j <> 0) /\
      forall i, (i < n)%nat -> sumn n (fun j => A i j * v j) = 0.

  Definition mat_wf (a : matrix F) : Prop := length (mt_el a) = (mt_m a * mt_n a)%nat.
  Definition ent (a : matrix F) (i j : nat) : F := nth (i * mt_n a + j) (mt_el a) 0.

  Lemma meq_sym n A B : meq n A B -> meq n B A.
  Proof. intros H i j Hi Hj. symmetry. auto. Qed.
  Lemma meq_trans n A B C : meq n A B -> meq n B C -> meq n A C.
  Proof. intros H H' i j Hi Hj. rewrite H, H'; auto. Qed.
  Lemma meq_refl n A : meq n A A.
  Proof. intros i j _ _. reflexivity. Qed.

  Lemma mmul_ext n A A' B B' : meq n A A' -> meq n B B' -> meq n (mmul n A B) (mmul n A' B').
  Proof. intros H H' i j Hi Hj. apply sumn_ext. intros k Hk. now rewrite H, H'. Qed.

  Lemma mmul_assoc n A B C : meq n (mmul n (mmul n A B) C) (mmul n A (mmul n B C)).
  Proof.
    intros i j Hi Hj. unfold mmul.
    rewrite (sumn_ext F n _ (fun k => sumn n (fun l => A i l * B l k * C k j)))
      by (intros k Hk; now rewrite sumn_scale_r).
    rewrite sumn_swap. apply sumn_ext. intros l Hl. rewrite <- sumn_scale. apply sumn_ext. intros. ring.
  Qed.

  Lemma mmul_id_l n A : meq n (mmul n idm A) A.
  Proof.
    intros i j Hi Hj. unfold mmul. rewrite (sumn_single F n i) by
      (auto; intros k Hk NE; unfold idm; rewrite (proj2 (Nat.eqb_neq i k)) by congruence; ring).
    unfold idm. rewrite Nat.eqb_refl. ring.
  Qed.

  Lemma mmul_id_r n A : meq n (mmul n A idm) A.
  Proof.
    intros i j Hi Hj. unfold mmul. rewrite (sumn_single F n j) by
      (auto; intros k Hk NE; unfold idm; rewrite (proj2 (Nat.eqb_neq k j)) by congruence; ring).
    unfold idm. rewrite Nat.eqb_refl. ring.
  Qed.

  (* ---------------------------------------------------------------- *)
  (** element access *)
  Lemma idx_lt (a : matrix F) i j : mat_wf a -> (i < mt_m a)%nat -> (j < mt_n a)%nat ->
    (i * mt_n a + j < length (mt_el a))%nat.
  Proof. intros H Hi Hj. rewrite H. assert ((i + 1) * mt_n a <= mt_m a * mt_n a)%nat by (apply Nat.mul_le_mono_r; lia). lia. Qed.

  Lemma mat_get_ok a i j : mat_wf a -> (i < mt_m a)%nat -> (j < mt_n a)%nat -> mat_get a i j = Some (ent a i j).
  Proof.
    intros H Hi Hj. unfold mat_get. rewrite (proj2 (Nat.ltb_lt _ _) Hi), (proj2 (Nat.ltb_lt _ _) Hj).
    cbn [andb]. apply nth_error_nth_eq. now apply idx_lt.
  Qed.

  (** [b] has the shape of [a] and the entries [f]. *)
  Definition is_mat (m n : nat) (f : nat -> nat -> F) (b : matrix F) : Prop :=
    mt_m b = m /\ mt_n b = n /\ mat_wf b /\
    forall i j, (i < m)%nat -> (j < n)%nat -> ent b i j = f i j.

  Lemma is_mat_self a : mat_wf a -> is_mat (mt_m a) (mt_n a) (ent a) a.
  Proof. repeat split; auto. Qed.

  Lemma is_mat_ext m n f g b : is_mat m n f b ->
    (forall i j, (i < m)%nat -> (j < n)%nat -> f i j = g i j) -> is_mat m n g b.
  Proof. intros [H1 [H2 [H3 H4]]] E. repeat split; auto. intros. rewrite H4; auto. Qed.

  Lemma mat_set_ok a m n f i j v : is_mat m n f a -> (i < m)%nat -> (j < n)%nat ->
    exists b, mat_set a i j v = Some b /\
      is_mat m n (fun x y => if (x =? i)%nat && (y =? j)%nat then v else f x y) b.
  Proof.
    intros [<- [<- [H4 H5]]] Hi Hj. unfold mat_set. pose proof (idx_lt a i j H4 Hi Hj) as IL.
    rewrite (proj2 (Nat.ltb_lt _ _) Hi), (proj2 (Nat.ltb_lt _ _) Hj), (proj2 (Nat.ltb_lt _ _) IL).
    cbn [andb]. eexists. split; [reflexivity|]. split; [|split; [|split]]; auto.
    - red. cbn [mt_el mt_m mt_n]. now rewrite upd_length.
    - intros x y Hx Hy. unfold ent. cbn [mt_el mt_n]. rewrite upd_nth, (proj2 (Nat.ltb_lt _ _) IL), andb_true_r.
      destruct ((x =? i)%nat && (y =? j)%nat) eqn:E.
      + apply andb_true_iff in E. rewrite !Nat.eqb_eq in E. destruct E as [-> ->]. now rewrite Nat.eqb_refl.
      + rewrite (proj2 (Nat.eqb_neq _ _)).
        * apply H5; auto.
        * intros C. apply rm_index in C; auto. destruct C as [-> ->]. now rewrite !Nat.eqb_refl in E.
  Qed.

  Lemma get_is a m n f i j : is_mat m n f a -> (i < m)%nat -> (j < n)%nat -> mat_get a i j = Some (f i j).
  Proof. intros [<- [<- [H3 H4]]] Hi Hj. rewrite mat_get_ok by auto. now rewrite H4. Qed.

  Lemma row_ok a m n f i : is_mat m n f a -> (i < m)%nat ->
    row_range a i = true /\ length (row_of a i) = n /\
    (i * n + n <= length (mt_el a))%nat /\
    (forall j, (j < n)%nat -> nth j (row_of a i) 0 = f i j).
  Proof.
    intros [<- [<- [H3 H4]]] Hi. unfold row_range, row_of.
    assert (B : (i * mt_n a + mt_n a <= length (mt_el a))%nat).
    { rewrite H3. assert ((i + 1) * mt_n a <= mt_m a * mt_n a)%nat by (apply Nat.mul_le_mono_r; lia). lia. }
    rewrite (proj2 (Nat.ltb_lt _ _) Hi), (proj2 (Nat.leb_le _ _)) by lia.
    rewrite firstn_length, skipn_length. split; auto. split; [lia|]. split; auto.
    intros j Hj. rewrite nth_firstn_lt, nth_skipn' by auto. now apply H4.
  Qed.

  Lemma splice_row a m n f i src : is_mat m n f a -> (i < m)%nat -> length src = n ->
    is_mat m n (fun x y => if (x =? i)%nat then nth y src 0 else f x y)
      (mkMat m n (splice (mt_el a) (i * n) src)).
  Proof.
    intros HA Hi HS. destruct (row_ok a m n f i HA Hi) as [_ [_ [B _]]].
    destruct HA as [E1 [E2 [H3 H4]]].
    split; [reflexivity|]. split; [reflexivity|]. split.
    - red. cbn [mt_el mt_m mt_n]. rewrite splice_length by lia. rewrite H3. congruence.
    - intros x y Hx Hy. unfold ent. cbn [mt_el mt_n]. rewrite splice_nth by lia. rewrite HS.
      destruct (Nat.eqb_spec x i) as [->|NE].
      + rewrite (proj2 (Nat.leb_le _ _)), (proj2 (Nat.ltb_lt _ _)) by lia. cbn [andb]. f_equal. lia.
      + specialize (H4 x y Hx Hy). unfold ent in H4. rewrite E2 in H4.
        destruct (Nat.lt_ge_cases x i).
        * rewrite (proj2 (Nat.leb_gt _ _)); [exact H4|].
          assert ((x + 1) * n <= i * n)%nat by (apply Nat.mul_le_mono_r; lia). lia.
        * rewrite (proj2 (Nat.ltb_ge _ _)); [now rewrite andb_false_r|].
          assert ((i + 1) * n <= x * n)%nat by (apply Nat.mul_le_mono_r; lia). lia.
  Qed.

  Lemma swap_rows_ok a m n f i0 i1 : is_mat m n f a -> (i0 < m)%nat -> (i1 < m)%nat ->
    exists b, swap_rows a i0 i1 = Some b /\
      is_mat m n (fun x => f (if (x =? i0)%nat then i1 else if (x =? i1)%nat then i0 else x)) b.
  Proof.
    intros HA H0 H1. unfold swap_rows.
    destruct (row_ok a m n f i0 HA H0) as [R0 [L0 [_ N0]]].
    destruct (row_ok a m n f i1 HA H1) as [R1 [L1 [_ N1]]].
    rewrite R0, R1. cbn [andb]. pose proof HA as [E1 [E2 _]]. rewrite E1, E2.
    rewrite (proj2 (Nat.ltb_lt _ _) H0), (proj2 (Nat.ltb_lt _ _) H1). cbn [andb].
    destruct (Nat.eqb_spec i0 i1) as [->|NE].
    - exists a. split; auto. eapply is_mat_ext; [exact HA|]. intros x y Hx Hy. cbv beta.
      destruct (Nat.eqb_spec x i1) as [->|]; reflexivity.
    - eexists. split; [reflexivity|].
      pose proof (splice_row a m n f i1 (row_of a i0) HA H1 L0) as HB.
      pose proof (splice_row _ m n _ i0 (row_of a i1) HB H0 L1) as HC. cbn [mt_el] in HC.
      eapply is_mat_ext; [exact HC|]. intros x y Hx Hy. cbv beta.
      destruct (Nat.eqb_spec x i0) as [->|]; [auto|]. destruct (Nat.eqb_spec x i1) as [->|]; auto.
  Qed.

  Lemma scale_row_ok a m n f i c : is_mat m n f a -> (i < m)%nat ->
    exists b, scale_row a i c = Some b /\
      is_mat m n (fun x y => if (x =? i)%nat then f x y * c else f x y) b.
  Proof.
    intros HA Hi. unfold scale_row. destruct (row_ok a m n f i HA Hi) as [R [L [_ N]]]. rewrite R.
    eexists. split; [reflexivity|]. pose proof HA as [E1 [E2 _]]. rewrite E1, E2.
    eapply is_mat_ext; [apply (splice_row a m n f i _ HA Hi); rewrite map_length; exact L|].
    intros x y Hx Hy. cbv beta. destruct (Nat.eqb_spec x i) as [->|]; auto.
    rewrite (nth_map_lt _ _ _ _ 0) by lia. now rewrite N.
  Qed.

  Lemma sub_pivot_row_ok a m n f i0 i1 c : is_mat m n f a -> (i0 < m)%nat -> (i1 < m)%nat -> i0 <> i1 ->
    exists b, sub_pivot_row a i0 i1 c = Some b /\
      is_mat m n (fun x y => if (x =? i0)%nat then f x y - f i1 y * c else f x y) b.
  Proof.
    intros HA H0 H1 NE. unfold sub_pivot_row. pose proof HA as [E1 [E2 _]]. rewrite E1, E2.
    rewrite (proj2 (Nat.ltb_lt _ _) H0), (proj2 (Nat.ltb_lt _ _) H1). cbn [andb].
    assert (G : forall k, (k <= n)%nat -> exists b,
      ofold (fun a j => do x <- mat_get a i1 j; do y <- mat_get a i0 j; mat_set a i0 j (y - x * c)) (seq 0 k) a = Some b /\
      is_mat m n (fun x y => if (x =? i0)%nat && (y <? k)%nat then f x y - f i1 y * c else f x y) b).
    { induction k as [|k IH]; intros Hk.
      - exists a. split; auto. eapply is_mat_ext; [exact HA|]. intros. now rewrite andb_false_r.
      - destruct IH as [b [E HB]]; [lia|]. rewrite seq_S, ofold_app, E. cbn [obind ofold Nat.add].
        rewrite (get_is b m n _ i1 k HB), (get_is b m n _ i0 k HB) by lia. cbn [obind].
        rewrite Nat.eqb_refl, Nat.ltb_irrefl, (proj2 (Nat.eqb_neq i1 i0)) by congruence. cbn [andb].
        destruct (mat_set_ok b m n _ i0 k (f i0 k - f i1 k * c) HB H0 ltac:(lia)) as [b' [E' HB']].
        rewrite E'. cbn [obind]. exists b'. split; auto.
        eapply is_mat_ext; [exact HB'|]. intros x y Hx Hy. cbv beta.
        destruct (Nat.eqb_spec x i0) as [->|]; cbn [andb]; auto.
        destruct (Nat.eqb_spec y k) as [->|]; [now rewrite (proj2 (Nat.ltb_lt k (S k))) by lia|].
        destruct (Nat.ltb_spec y k), (Nat.ltb_spec y (S k)); auto; lia. }
    destruct (G n (le_n n)) as [b [E HB]]. exists b. split; auto.
    eapply is_mat_ext; [exact HB|]. intros x y Hx Hy. cbv beta. now rewrite (proj2 (Nat.ltb_lt y n) Hy), andb_true_r.
  Qed.

  Lemma set_diag_ok n k : forall a f, is_mat n n f a -> (k <= n)%nat ->
    exists b, ofold (fun a i => mat_set a i i 1) (seq 0 k) a = Some b /\
      is_mat n n (fun x y => if (x =? y)%nat && (x <? k)%nat then 1 else f x y) b.
  Proof.
    induction k as [|k IH]; intros a f HA Hk.
    - exists a. split; auto. eapply is_mat_ext; [exact HA|]. intros. now rewrite andb_false_r.
    - destruct (IH a f HA) as [b [E HB]]; [lia|]. rewrite seq_S, ofold_app, E. cbn [obind ofold Nat.add].
      destruct (mat_set_ok b n n _ k k 1 HB ltac:(lia) ltac:(lia)) as [b' [E' HB']]. rewrite E'. cbn [obind].
      exists b'. split; auto. eapply is_mat_ext; [exact HB'|]. intros x y Hx Hy. cbv beta.
      destruct (Nat.eqb_spec x k) as [->|].
      + cbn [andb]. rewrite (proj2 (Nat.ltb_lt k (S k))) by lia. rewrite andb_true_r, Nat.ltb_irrefl, andb_false_r.
        destruct (Nat.eqb_spec y k) as [->|]; [now rewrite Nat.eqb_refl|].
        now rewrite (proj2 (Nat.eqb_neq k y)) by congruence.
      + cbn [andb]. destruct (Nat.eqb_spec x y); cbn [andb]; auto.
        destruct (Nat.ltb_spec x k), (Nat.ltb_spec x (S k)); auto; lia.
  Qed.

  Lemma repeat_is m n (el : list F) : length el = (m * n)%nat -> is_mat m n (fun _ _ => 0) (mkMat m n (repeat 0 (length el))).
  Proof.
    intros H. split; [reflexivity|]. split; [reflexivity|]. split.
    - red. cbn. now rewrite repeat_length.
    - intros i j Hi Hj. unfold ent. cbn [mt_n mt_el]. apply nth_repeat0. rewrite H.
      assert ((i + 1) * n <= m * n)%nat by (apply Nat.mul_le_mono_r; lia). lia.
  Qed.

  Theorem mat_identity_correct n : exists b, mat_identity (F:=F) n = Some b /\ is_mat n n idm b.
  Proof.
    unfold mat_identity.
    destruct (set_diag_ok n n (mat_zeros n n) (fun _ _ => 0)) as [b [E HB]]; auto.
    { pose proof (repeat_is n n (repeat 0 (n * n))) as H. rewrite repeat_length in H. now apply H. }
    exists b. split; auto. eapply is_mat_ext; [exact HB|]. intros x y Hx Hy. cbv beta. unfold idm.
    now rewrite (proj2 (Nat.ltb_lt x n) Hx), andb_true_r.
  Qed.

  Lemma fill_identity_ok a n : mat_wf a -> mt_m a = n -> mt_n a = n ->
    exists b, fill_identity a = Some b /\ is_mat n n idm b.
  Proof.
    intros HW E1 E2. unfold fill_identity. rewrite E1, E2, Nat.eqb_refl.
    destruct (set_diag_ok n n _ _ (repeat_is n n (mt_el a) ltac:(rewrite HW; congruence)) (le_n n)) as [b [E HB]].
    exists b. split; auto. eapply is_mat_ext; [exact HB|]. intros x y Hx Hy. cbv beta. unfold idm.
    now rewrite (proj2 (Nat.ltb_lt x n) Hx), andb_true_r.
  Qed.

  (* ---------------------------------------------------------------- *)
  (** The elimination *)

  (** [out] is invertible and [tmp = out * A]. *)
  Definition inv_ok (n : nat) (A tmp out : nat -> nat -> F) : Prop :=
    meq n tmp (mmul n out A) /\
    exists G, meq n (mmul n G out) idm /\ meq n (mmul n out G) idm.

  Lemma row_op n A tmp out R R' tmp' out' :
    inv_ok n A tmp out -> meq n (mmul n R R') idm -> meq n (mmul n R' R) idm ->
    meq n tmp' (mmul n R tmp) -> meq n out' (mmul n R out) -> inv_ok n A tmp' out'.
  Proof.
    intros [HT [G [G1 G2]]] HR1 HR2 HT' HO'. split.
    - eapply meq_trans; [exact HT'|]. eapply meq_trans; [apply mmul_ext; [apply meq_refl|exact HT]|].
      eapply meq_trans; [apply meq_sym, mmul_assoc|]. apply mmul_ext; [|apply meq_refl]. now apply meq_sym.
    - exists (mmul n G R'). split.
      + eapply meq_trans; [apply mmul_ext; [apply meq_refl|exact HO']|].
        eapply meq_trans; [apply mmul_assoc|].
        eapply meq_trans; [apply mmul_ext; [apply meq_refl|]|exact G1].
        eapply meq_trans; [apply meq_sym, mmul_assoc|].
        eapply meq_trans; [apply mmul_ext; [exact HR2|apply meq_refl]|]. apply mmul_id_l.
      + eapply meq_trans; [apply mmul_ext; [exact HO'|apply meq_refl]|].
        eapply meq_trans; [apply mmul_assoc|].
        eapply meq_trans; [apply mmul_ext; [apply meq_refl|]|exact HR1].
        eapply meq_trans; [apply meq_sym, mmul_assoc|].
        eapply meq_trans; [apply mmul_ext; [exact G2|apply meq_refl]|]. apply mmul_id_l.
  Qed.

  (** elementary row operations as matrices *)
  Definition Rperm (s : nat -> nat) (i k : nat) : F := if (s i =? k)%nat then 1 else 0.
  Definition Rdiag (d : nat -> F) (i k : nat) : F := if (i =? k)%nat then d i else 0.
  Definition Rsub (a b : nat) (s : F) (i k : nat) : F :=
    (if (i =? k)%nat then 1 else 0) - (if (i =? a)%nat && (b =? k)%nat then s else 0).

  Lemma sum_delta n i (c : F) (f : nat -> F) : (i < n)%nat ->
    sumn n (fun k => (if (i =? k)%nat then c else 0) * f k) = c * f i.
  Proof.
    intros Hi. rewrite (sumn_single F n i) by (auto; intros k Hk NE; rewrite (proj2 (Nat.eqb_neq i k)) by congruence; ring).
    now rewrite Nat.eqb_refl.
  Qed.

  Lemma Rperm_mul n s M : (forall i, (i < n)%nat -> (s i < n)%nat) -> meq n (mmul n (Rperm s) M) (fun i => M (s i)).
  Proof. intros HS i j Hi Hj. unfold mmul, Rperm. rewrite sum_delta by auto. ring. Qed.
  Lemma Rdiag_mul n d M : meq n (mmul n (Rdiag d) M) (fun i j => d i * M i j).
  Proof. intros i j Hi Hj. unfold mmul, Rdiag. rewrite sum_delta by auto. ring. Qed.
  Lemma Rsub_mul n a b s M : (b < n)%nat ->
    meq n (mmul n (Rsub a b s) M) (fun i j => if (i =? a)%nat then M i j - M b j * s else M i j).
  Proof.
    intros Hb i j Hi Hj. unfold mmul, Rsub.
    rewrite (sumn_ext F n _ (fun k => (if (i =? k)%nat then 1 else 0) * M k j -
       (if (b =? k)%nat then (if (i =? a)%nat then s else 0) else 0) * M k j)).
    - rewrite sumn_sub, !sum_delta by auto. destruct (i =? a)%nat; ring.
    - intros k Hk. destruct (i =? a)%nat, (b =? k)%nat; cbn [andb]; ring.
  Qed.

  (** the columns before [i] are those of the identity *)
  Definition reduced (n i : nat) (M : nat -> nat -> F) : Prop :=
    forall r c, (r < n)%nat -> (c < i)%nat -> M r c = idm r c.

  Lemma find_pivot_ok a n f i rows : is_mat n n f a -> (i < n)%nat -> (forall r, In r rows -> (r < n)%nat) ->
    (exists p, find_pivot a i rows = Some (Some p) /\ In p rows /\ f p i <> 0) \/
    (find_pivot a i rows = Some None /\ forall r, In r rows -> f r i = 0).
  Proof.
    intros HA Hi. induction rows as [|r rs IH]; intros HR.
    - right. split; auto. intros r [].
    - cbn [find_pivot]. rewrite (get_is a n n f r i HA) by (auto; apply HR; now left). cbn [obind].
      destruct (feqb_spec F (f r i) 0) as [E|NE].
      + destruct IH as [[p [E' [I' N']]]|[E' A']].
        * intros x Hx. apply HR. now right.
        * left. exists p. split; auto. split; auto. now right.
        * right. split; auto. intros x [<-|Hx]; auto.
      + left. exists r. split; auto. split; auto. now left.
  Qed.

  Definition st_ok (n : nat) (A ft fo : nat -> nat -> F) (st : matrix F * matrix F) : Prop :=
    is_mat n n ft (fst st) /\ is_mat n n fo (snd st) /\ inv_ok n A ft fo.

  Lemma clear_ok n A i js : forall ft fo st,
    st_ok n A ft fo st -> (i < n)%nat -> ft i i = 1 -> (forall c, (c < i)%nat -> ft i c = 0) ->
    (forall j, In j js -> (j < n)%nat /\ j <> i) ->
    exists st' ft' fo',
      ofold (fun s j => do c <- mat_get (fst s) j i; do t <- sub_pivot_row (fst s) j i c;
                        do o <- sub_pivot_row (snd s) j i c; Some (t, o)) js st = Some st' /\
      st_ok n A ft' fo' st' /\
      (forall r c, (r < n)%nat -> (c < i)%nat -> ft' r c = ft r c) /\
      (forall r, (r < n)%nat -> ft' r i = if existsb (Nat.eqb r) js then 0 else ft r i).
  Proof.
    induction js as [|j js IH]; intros ft fo st HS Hi HP HZ HJ.
    - exists st, ft, fo. cbn. auto.
    - cbn [ofold]. destruct HS as [HT [HO HI]]. destruct (HJ j (or_introl eq_refl)) as [Hj NE].
      rewrite (get_is _ n n ft j i HT) by auto. cbn [obind].
      destruct (sub_pivot_row_ok _ n n ft j i (ft j i) HT Hj Hi NE) as [t' [Et Ht']].
      destruct (sub_pivot_row_ok _ n n fo j i (ft j i) HO Hj Hi NE) as [o' [Eo Ho']].
      rewrite Et. cbn [obind]. rewrite Eo. cbn [obind].
      set (ft1 := fun x y => if (x =? j)%nat then ft x y - ft i y * ft j i else ft x y) in *.
      set (fo1 := fun x y => if (x =? j)%nat then fo x y - fo i y * ft j i else fo x y) in *.
      assert (NI : (i =? j)%nat = false) by (apply Nat.eqb_neq; congruence).
      destruct (IH ft1 fo1 (t', o')) as [st' [ft' [fo' [E [HS' [HC HK]]]]]]; auto.
      + split; [exact Ht'|]. split; [exact Ho'|].
        apply row_op with (tmp := ft) (out := fo) (R := Rsub j i (ft j i)) (R' := Rsub j i (- ft j i)); auto.
        * eapply meq_trans; [apply Rsub_mul; auto|]. intros x y Hx Hy. cbv beta. unfold Rsub, idm.
          destruct (Nat.eqb_spec x j) as [->|NX]; cbn [andb]; [|destruct (x =? y)%nat; ring].
          rewrite NI. cbn [andb]. destruct (j =? y)%nat, (i =? y)%nat; ring.
        * eapply meq_trans; [apply Rsub_mul; auto|]. intros x y Hx Hy. cbv beta. unfold Rsub, idm.
          destruct (Nat.eqb_spec x j) as [->|NX]; cbn [andb]; [|destruct (x =? y)%nat; ring].
          rewrite NI. cbn [andb]. destruct (j =? y)%nat, (i =? y)%nat; ring.
        * apply meq_sym. apply Rsub_mul; auto.
        * apply meq_sym. apply Rsub_mul; auto.
      + unfold ft1. now rewrite NI.
      + intros c Hc. unfold ft1. rewrite NI. auto.
      + intros x Hx. apply HJ. now right.
      + exists st', ft', fo'. split; auto. split; auto. split.
        * intros r c Hr Hc. rewrite HC by auto. unfold ft1. destruct (r =? j)%nat; auto. rewrite HZ by auto. ring.
        * intros r Hr. rewrite HK by auto. cbn [existsb]. unfold ft1.
          destruct (Nat.eqb_spec r j) as [->|]; cbn [orb]; auto.
          destruct (existsb (Nat.eqb j) js); auto. rewrite HP. ring.
  Qed.

  Lemma elim_step_ok n A i ft fo st :
    st_ok n A ft fo st -> reduced n i ft -> (i < n)%nat ->
    (elim_step st i = Err /\ forall r, (i <= r < n)%nat -> ft r i = 0) \/
    (exists st' ft' fo', elim_step st i = Ok st' /\ st_ok n A ft' fo' st' /\ reduced n (S i) ft').
  Proof.
    intros HS HR Hi. destruct st as [tmp out]. unfold elim_step.
    pose proof HS as [HT [HO HI]]. cbn [fst snd] in HT, HO.
    pose proof HT as [_ [En _]]. rewrite En.
    destruct (find_pivot_ok tmp n ft i (seq i (n - i)) HT Hi) as [[p [E [Hp NZ]]]|[E Z]].
    { intros r Hr. apply in_seq in Hr. lia. }
    2:{ left. rewrite E. split; auto. intros r Hr. apply Z. apply in_seq. lia. }
    right. rewrite E. cbn [of_opt rbind]. apply in_seq in Hp.
    (* swap *)
    assert (SW : exists st1 ft1 fo1,
      (if (p =? i)%nat then Some (tmp, out)
       else do t <- swap_rows tmp i p; do o <- swap_rows out i p; Some (t, o)) = Some st1 /\
      st_ok n A ft1 fo1 st1 /\ reduced n i ft1 /\ ft1 i i <> 0).
    { destruct (Nat.eqb_spec p i) as [->|NE].
      - exists (tmp, out), ft, fo. auto.
      - destruct (swap_rows_ok tmp n n ft i p HT Hi ltac:(lia)) as [t [Et Ht]].
        destruct (swap_rows_ok out n n fo i p HO Hi ltac:(lia)) as [o [Eo Ho]].
        rewrite Et. cbn [obind]. rewrite Eo. cbn [obind].
        set (s := fun x => if (x =? i)%nat then p else if (x =? p)%nat then i else x) in *.
        assert (SB : forall x, (x < n)%nat -> (s x < n)%nat).
        { intros x Hx. unfold s. destruct (x =? i)%nat; [lia|]. destruct (x =? p)%nat; lia. }
        assert (SS : forall x, s (s x) = x).
        { intros x. unfold s. destruct (Nat.eqb_spec x i) as [->|].
          - rewrite (proj2 (Nat.eqb_neq p i)) by auto. now rewrite Nat.eqb_refl.
          - destruct (Nat.eqb_spec x p) as [->|]; [now rewrite Nat.eqb_refl|].
            rewrite (proj2 (Nat.eqb_neq x i)), (proj2 (Nat.eqb_neq x p)) by auto. reflexivity. }
        exists (t, o), (fun x => ft (s x)), (fun x => fo (s x)). split; auto. split; [|split].
        + split; [exact Ht|]. split; [exact Ho|].
          apply row_op with (tmp := ft) (out := fo) (R := Rperm s) (R' := Rperm s); auto.
          * eapply meq_trans; [apply Rperm_mul; auto|]. intros x y Hx Hy. cbv beta. unfold Rperm, idm. now rewrite SS.
          * eapply meq_trans; [apply Rperm_mul; auto|]. intros x y Hx Hy. cbv beta. unfold Rperm, idm. now rewrite SS.
          * apply meq_sym, Rperm_mul; auto.
          * apply meq_sym, Rperm_mul; auto.
        + intros r c Hr Hc. rewrite HR by auto. unfold idm, s.
          destruct (Nat.eqb_spec r i) as [->|].
          * rewrite (proj2 (Nat.eqb_neq p c)), (proj2 (Nat.eqb_neq i c)) by lia. reflexivity.
          * destruct (Nat.eqb_spec r p) as [->|]; auto.
            rewrite (proj2 (Nat.eqb_neq p c)), (proj2 (Nat.eqb_neq i c)) by lia. reflexivity.
        + unfold s. now rewrite Nat.eqb_refl. }
    destruct SW as [[t1 o1] [ft1 [fo1 [E1 [HS1 [HR1 NZ1]]]]]]. rewrite E1. cbn [of_opt rbind fst snd].
    destruct HS1 as [HT1 [HO1 HI1]]. cbn [fst snd] in HT1, HO1.
    rewrite (get_is t1 n n ft1 i i HT1) by auto. cbn [of_opt rbind].
    rewrite (proj2 (feqb_false F _ _) NZ1).
    (* scale *)
    set (c := finv (ft1 i i)).
    destruct (scale_row_ok t1 n n ft1 i c HT1 Hi) as [t2 [Et2 Ht2]].
    destruct (scale_row_ok o1 n n fo1 i c HO1 Hi) as [o2 [Eo2 Ho2]].
    rewrite Et2. cbn [obind]. rewrite Eo2. cbn [obind of_opt rbind].
    set (ft2 := fun x y => if (x =? i)%nat then ft1 x y * c else ft1 x y) in *.
    set (fo2 := fun x y => if (x =? i)%nat then fo1 x y * c else fo1 x y) in *.
    assert (CI : ft1 i i * c = 1) by (apply f_inv_r; auto).
    assert (HS2 : st_ok n A ft2 fo2 (t2, o2)).
    { split; [exact Ht2|]. split; [exact Ho2|].
      apply row_op with (tmp := ft1) (out := fo1) (R := Rdiag (fun x => if (x =? i)%nat then c else 1))
        (R' := Rdiag (fun x => if (x =? i)%nat then ft1 i i else 1)); auto.
      - eapply meq_trans; [apply Rdiag_mul; auto|]. intros x y Hx Hy. cbv beta. unfold Rdiag, idm.
        destruct (x =? y)%nat; [|ring]. destruct (x =? i)%nat; [|ring]. rewrite <- CI. ring.
      - eapply meq_trans; [apply Rdiag_mul; auto|]. intros x y Hx Hy. cbv beta. unfold Rdiag, idm.
        destruct (x =? y)%nat; [|ring]. destruct (x =? i)%nat; [|ring]. rewrite <- CI. ring.
      - apply meq_sym. eapply meq_trans; [apply Rdiag_mul; auto|]. intros x y Hx Hy. unfold ft2. cbv beta.
        destruct (x =? i)%nat; ring.
      - apply meq_sym. eapply meq_trans; [apply Rdiag_mul; auto|]. intros x y Hx Hy. unfold fo2. cbv beta.
        destruct (x =? i)%nat; ring. }
    assert (R2 : reduced n i ft2).
    { intros r d Hr Hd. unfold ft2. destruct (Nat.eqb_spec r i) as [->|]; [|now apply HR1].
      rewrite HR1 by auto. unfold idm. rewrite (proj2 (Nat.eqb_neq i d)) by lia. ring. }
    destruct (clear_ok n A i (seq 0 i ++ seq (i + 1) (n - (i + 1))) ft2 fo2 (t2, o2) HS2 Hi)
      as [st' [ft' [fo' [E' [HS' [HC HK]]]]]].
    - unfold ft2. now rewrite Nat.eqb_refl.
    - intros d Hd. rewrite R2 by auto. unfold idm. rewrite (proj2 (Nat.eqb_neq i d)) by lia. reflexivity.
    - intros j Hj. apply in_app_iff in Hj. rewrite !in_seq in Hj. lia.
    - rewrite E'. exists st', ft', fo'. split; auto. split; auto.
      intros r d Hr Hd. destruct (Nat.eq_dec d i) as [->|ND].
      + rewrite HK by auto. unfold idm. destruct (Nat.eqb_spec r i) as [->|NR].
        * replace (existsb _ _) with false; [unfold ft2; now rewrite Nat.eqb_refl|].
          symmetry. apply not_true_is_false. intros C. apply existsb_exists in C. destruct C as [x [Hx Ex]].
          apply Nat.eqb_eq in Ex. subst x. apply in_app_iff in Hx. rewrite !in_seq in Hx. lia.
        * replace (existsb _ _) with true; auto. symmetry. apply existsb_exists. exists r.
          split; [|apply Nat.eqb_refl]. apply in_app_iff. rewrite !in_seq. lia.
      + rewrite HC by (auto; lia). apply R2; auto. lia.
  Qed.

  Lemma kernel n A ft fo i : inv_ok n A ft fo -> reduced n i ft -> (i < n)%nat ->
    (forall r, (i <= r < n)%nat -> ft r i = 0) -> singular n A.
  Proof.
    intros [HT [G [G1 G2]]] HR Hi HZ.
    set (v := fun j => if (j <? i)%nat then - ft j i else if (j =? i)%nat then 1 else 0).
    assert (TV : forall r, (r < n)%nat -> sumn n (fun j => ft r j * v j) = 0).
    { intros r Hr.
      rewrite (sumn_trunc F (S i) n) by (try lia; intros j Hj; unfold v;
        rewrite (proj2 (Nat.ltb_ge j i)), (proj2 (Nat.eqb_neq j i)) by lia; ring).
      rewrite sumn_S. unfold v at 2. rewrite Nat.ltb_irrefl, Nat.eqb_refl.
      destruct (Nat.lt_ge_cases r i) as [L|L].
      - rewrite (sumn_single F i r) by (auto; intros j Hj NE; rewrite HR by auto; unfold idm;
          rewrite (proj2 (Nat.eqb_neq r j)) by congruence; ring).
        rewrite HR by auto. unfold idm, v. rewrite Nat.eqb_refl, (proj2 (Nat.ltb_lt r i) L). ring.
      - rewrite sumn_zero.
        + rewrite HZ by auto. ring.
        + intros j Hj. rewrite HR by auto. unfold idm. rewrite (proj2 (Nat.eqb_neq r j)) by lia. ring. }
    exists v. split.
    - exists i. split; auto. unfold v. rewrite Nat.ltb_irrefl, Nat.eqb_refl. apply f_10.
    - intros r Hr.
      (* A v = G out A v = G tmp v = 0 *)
      assert (EA : meq n A (mmul n G ft)).
      { apply meq_sym. eapply meq_trans; [apply mmul_ext; [apply meq_refl|exact HT]|].
        eapply meq_trans; [apply meq_sym, mmul_assoc|].
        eapply meq_trans; [apply mmul_ext; [exact G1|apply meq_refl]|]. apply mmul_id_l. }
      rewrite (sumn_ext F n _ (fun j => sumn n (fun k => G r k * ft k j * v j)))
        by (intros j Hj; rewrite EA by auto; unfold mmul; now rewrite sumn_scale_r).
      rewrite sumn_swap. apply sumn_zero. intros k Hk.
      rewrite (sumn_ext F n _ (fun j => G r k * (ft k j * v j))) by (intros; ring).
      rewrite sumn_scale, TV by auto. ring.
  Qed.

  Lemma elim_loop_ok n A : forall k i ft fo st, (i + k)%nat = n ->
    st_ok n A ft fo st -> reduced n i ft ->
    (elim_loop st (seq i k) = Err /\ singular n A) \/
    (exists st' ft' fo', elim_loop st (seq i k) = Ok st' /\ st_ok n A ft' fo' st' /\ reduced n n ft').
  Proof.
    induction k as [|k IH]; intros i ft fo st HN HS HR.
    - right. exists st, ft, fo. replace n with i by lia. replace i with n in HR by lia.
      cbn. split; auto. replace i with n by lia. auto.
    - cbn [seq elim_loop].
      destruct (elim_step_ok n A i ft fo st HS HR ltac:(lia)) as [[E Z]|[st' [ft' [fo' [E [HS' HR']]]]]].
      + left. rewrite E. split; auto. destruct HS as [_ [_ HI]]. apply (kernel n A ft fo i); auto. lia.
      + rewrite E. cbn [rbind]. apply (IH (S i) ft' fo' st'); auto. lia.
  Qed.

  (** C20: a two-sided inverse for every invertible matrix, an error exactly for the singular ones. *)
  Theorem inverse_into_correct a out n :
    mat_wf a -> mat_wf out -> mt_m a = n -> mt_n a = n -> mt_m out = n -> mt_n out = n ->
    (singular n (ent a) /\ inverse_into a out = Err) \/
    (~ singular n (ent a) /\ exists b, inverse_into a out = Ok b /\
       mt_m b = n /\ mt_n b = n /\ mat_wf b /\
       meq n (mmul n (ent a) (ent b)) idm /\ meq n (mmul n (ent b) (ent a)) idm).
  Proof.
    intros HW HO E1 E2 E3 E4. unfold inverse_into. rewrite E1, E2, E3, E4, Nat.eqb_refl. cbn [andb].
    destruct (fill_identity_ok out n HO E3 E4) as [o [Eo Ho]]. rewrite Eo. cbn [of_opt rbind].
    assert (HA : is_mat n n (ent a) a) by (rewrite <- E1 at 1; rewrite <- E2; now apply is_mat_self).
    assert (HS : st_ok n (ent a) (ent a) idm (a, o)).
    { split; [exact HA|]. split; [exact Ho|]. split.
      - apply meq_sym, mmul_id_l.
      - exists idm. split; apply mmul_id_l. }
    destruct (elim_loop_ok n (ent a) n 0 (ent a) idm (a, o) eq_refl HS) as [[E S]|[st' [ft' [fo' [E [HS' HR']]]]]].
    { intros r c _ Hc. lia. }
    - left. rewrite E. auto.
    - right. rewrite E. cbn [rbind].
      destruct HS' as [HT' [[F1 [F2 [F3 F4]]] [HM [G [G1 G2]]]]].
      assert (BA : meq n (mmul n fo' (ent a)) idm).
      { eapply meq_trans; [apply meq_sym; exact HM|]. intros r c Hr Hc. now apply HR'. }
      assert (EB : meq n (ent (snd st')) fo') by (intros i j Hi Hj; now apply F4).
      assert (AG : meq n (ent a) G).
      { eapply meq_trans; [apply meq_sym, mmul_id_l|].
        eapply meq_trans; [apply mmul_ext; [apply meq_sym; exact G1|apply meq_refl]|].
        eapply meq_trans; [apply mmul_assoc|].
        eapply meq_trans; [apply mmul_ext; [apply meq_refl|exact BA]|]. apply mmul_id_r. }
      assert (BA' : meq n (mmul n (ent (snd st')) (ent a)) idm).
      { eapply meq_trans; [apply mmul_ext; [exact EB|apply meq_refl]|exact BA]. }
      split.
      + intros [v [[j [Hj NZ]] Hv]]. apply NZ.
        transitivity (sumn n (fun k => mmul n (ent (snd st')) (ent a) j k * v k)).
        * rewrite (sumn_ext F n _ (fun k => (if (j =? k)%nat then 1 else 0) * v k))
            by (intros k Hk; rewrite BA' by auto; reflexivity).
          rewrite sum_delta by auto. ring.
        * unfold mmul. rewrite (sumn_ext F n _ (fun k => sumn n (fun l => ent (snd st') j l * ent a l k * v k)))
            by (intros k Hk; now rewrite sumn_scale_r).
          rewrite sumn_swap. apply sumn_zero. intros l Hl.
          rewrite (sumn_ext F n _ (fun k => ent (snd st') j l * (ent a l k * v k))) by (intros; ring).
          rewrite sumn_scale, Hv by auto. ring.
      + exists (snd st'). split; auto. split; auto. split; auto. split; auto. split; auto.
        eapply meq_trans; [apply mmul_ext; [exact AG|exact EB]|exact G1].
  Qed.

  Theorem inverse_into_not_square (a out : matrix F) :
    mt_m a = mt_m out -> mt_n a = mt_n out -> mt_m a <> mt_n a -> inverse_into a out = Err.
  Proof.
    intros E1 E2 NE. unfold inverse_into. rewrite E1, E2, !Nat.eqb_refl. cbn [andb].
    rewrite <- E1, <- E2, (proj2 (Nat.eqb_neq _ _) NE). reflexivity.
  Qed.

  (** Products. *)
  Theorem mul_vec_into_correct a x y : mat_wf a -> mt_n a = length x -> mt_m a = length y ->
    exists r, mul_vec_into a x y = Some r /\ length r = length y /\
      forall i, (i < length y)%nat -> nth i r 0 = sumn (length x) (fun j => ent a i j * nth j x 0).
  Proof.
    intros HW E1 E2. unfold mul_vec_into. rewrite E1, E2, !Nat.eqb_refl. cbn [andb].
    rewrite (omap_fn _ (fun i => sumn (length x) (fun j => ent a i j * nth j x 0))).
    - eexists. split; [reflexivity|]. split; [now rewrite map_length, seq_length|].
      intros i Hi. now rewrite nth_map_seq.
    - intros i Hi. apply osum_ok. intros j Hj.
      rewrite (nth_error_nth_eq x j 0) by auto. cbn [obind]. rewrite mat_get_ok by (auto; congruence).
      cbn [obind]. f_equal. ring.
  Qed.

  Theorem mul_into_correct a b c : mat_wf a -> mat_wf b -> mat_wf c ->
    mt_n a = mt_m b -> mt_m a = mt_m c -> mt_n b = mt_n c ->
    exists d, mul_into a b c = Some d /\ mt_m d = mt_m c /\ mt_n d = mt_n c /\ mat_wf d /\
      forall i j, (i < mt_m c)%nat -> (j < mt_n c)%nat -> ent d i j = mmul (mt_n a) (ent a) (ent b) i j.
  Proof.
    intros HA HB HC E1 E2 E3. unfold mul_into. rewrite E1, E2, E3, !Nat.eqb_refl. cbn [andb]. rewrite <- E1.
    set (P := list_prod (seq 0 (mt_m c)) (seq 0 (mt_n c))).
    assert (HP : forall p, In p P -> (fst p < mt_m c)%nat /\ (snd p < mt_n c)%nat).
    { intros [i j] H. apply in_prod_iff in H. rewrite !in_seq in H. cbn. lia. }
    set (g := mmul (mt_n a) (ent a) (ent b)).
    assert (G : forall l (c0 : matrix F) f, is_mat (mt_m c) (mt_n c) f c0 -> (forall p, In p l -> In p P) ->
      exists d, ofold (fun c ij =>
               do s <- osum (mt_n a) (fun k => do x <- mat_get a (fst ij) k; do y <- mat_get b k (snd ij); Some (x * y));
               mat_set c (fst ij) (snd ij) s) l c0 = Some d /\
        is_mat (mt_m c) (mt_n c) (fun i j => if existsb (fun p => (i =? fst p)%nat && (j =? snd p)%nat) l then g i j else f i j) d).
    { induction l as [|p l IH]; intros c0 f H0 HL.
      - exists c0. split; auto.
      - cbn [ofold]. destruct (HP p (HL p (or_introl eq_refl))) as [P1 P2].
        rewrite (osum_ok F (mt_n a) _ (fun k => ent a (fst p) k * ent b k (snd p))).
        2:{ intros k Hk. rewrite mat_get_ok by (auto; lia). cbn [obind]. rewrite mat_get_ok by (auto; lia). reflexivity. }
        cbn [obind]. fold (mmul (mt_n a) (ent a) (ent b) (fst p) (snd p)). fold g.
        destruct (mat_set_ok c0 _ _ f (fst p) (snd p) (g (fst p) (snd p)) H0 P1 P2) as [c1 [Ec Hc]].
        rewrite Ec. cbn [obind]. destruct (IH c1 _ Hc) as [d [Ed Hd]].
        { intros q Hq. apply HL. now right. }
        exists d. split; auto. eapply is_mat_ext; [exact Hd|]. intros i j Hi Hj. cbv beta. cbn [existsb].
        destruct ((i =? fst p)%nat && (j =? snd p)%nat) eqn:Q; cbn [orb]; auto.
        apply andb_true_iff in Q. rewrite !Nat.eqb_eq in Q. destruct Q as [-> ->].
        destruct (existsb _ l); reflexivity. }
    destruct (G P c (ent c) (is_mat_self c HC) (fun p H => H)) as [d [E [D1 [D2 [D3 D4]]]]].
    exists d. split; [exact E|]. split; auto. split; auto. split; auto.
    intros i j Hi Hj. rewrite D4 by auto. cbv beta. replace (existsb _ P) with true; auto.
    symmetry. apply existsb_exists. exists (i, j). cbn. rewrite !Nat.eqb_refl. split; auto.
    apply in_prod; apply in_seq; lia.
  Qed.
End Props.

Arguments mmul {_} _ _ _ _ _.
Arguments idm {_} _ _.
Arguments meq {_} _ _ _.
Arguments singular {_} _ _.
Arguments mat_wf {_} _.
Arguments ent {_} _ _ _.

(** A matrix that needs a row exchange, with its inverse, and a singular one. *)
Definition shown_m (r : res (matrix X16)) : res (list N) := shown (try a <- r; Ok (mt_el a)).

Example inverse_ex :
  shown_m (inverse_into (mkMat 3 3 (els [0; 2; 1; 3; 5; 0; 1; 1; 7]%N)) (mat_zeros 3 3))
    = Ok [2; 8; 5; 14; 1; 3; 6; 2; 1]%N.
Proof. vm_compute. reflexivity. Qed.

Example singular_ex :
  shown_m (inverse_into (mkMat 2 2 (els [1; 2; 1; 2]%N)) (mat_zeros 2 2)) = Err.
Proof. vm_compute. reflexivity. Qed.
