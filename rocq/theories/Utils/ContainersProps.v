(** C49: the sparse index is a finite map for every history of operations; the strided mutable views
    partition their array for every shape and stride; the two-dimensional array obeys the array
    laws. *)
Require Import Coq.Arith.Arith Coq.Lists.List Coq.Bool.Bool Coq.Sorting.Sorted Lia.
Require Import Verif.Base.Lists.
Require Import Verif.Utils.ContainersModel.
Import ListNotations.

(** * Specification of the sparse index: a partial function from keys to values *)
Definition map_apply {T} (m : nat -> option T) (o : sp_op T) : nat -> option T :=
  match o with
  | OpSet id v => fun k => if k =? id then Some v else m k
  | OpEntry id v f => fun k =>
      if k =? id then Some (f (match m id with Some x => x | None => v end)) else m k
  | OpModify id f => fun k => if k =? id then option_map f (m id) else m k
  | OpValuesMut f => fun k => option_map f (m k)
  end.
(** [l] lists the graph of [m] in increasing key order. *)
Definition lists_graph {T} (m : nat -> option T) (l : list (nat * T)) : Prop :=
  StronglySorted (fun p q => fst p < fst q) l /\ forall k v, In (k, v) l <-> m k = Some v.

Section S.
Context {T : Type}.

Lemma get_nil id : sp_get ([] : sparse T) id = None.
Proof. unfold sp_get. now destruct id. Qed.

Lemma get_repeat c id : sp_get (repeat None c : sparse T) id = None.
Proof.
  unfold sp_get. destruct (nth_error (repeat None c) id) as [o|] eqn:E; [|reflexivity].
  apply nth_error_In, repeat_spec in E. now subst.
Qed.

Lemma get_grow (s : sparse T) id k : sp_get (sp_grow s id) k = sp_get s k.
Proof.
  unfold sp_grow. destruct (Nat.leb_spec (length s) id); [|reflexivity].
  unfold sp_resize. destruct (Nat.lt_ge_cases k (length s)) as [Hk|Hk].
  - unfold sp_get. now rewrite nth_error_app1 by exact Hk.
  - unfold sp_get at 2. rewrite (proj2 (nth_error_None s k) Hk).
    unfold sp_get. rewrite nth_error_app2 by exact Hk. apply get_repeat.
Qed.

Lemma grow_length (s : sparse T) id : id < length (sp_grow s id).
Proof.
  unfold sp_grow. destruct (Nat.leb_spec (length s) id); [|lia].
  unfold sp_resize. rewrite app_length, repeat_length. lia.
Qed.

Lemma get_upd (s : sparse T) id o k : id < length s ->
  sp_get (upd s id o) k = if k =? id then o else sp_get s k.
Proof.
  intros H. unfold sp_get. destruct (Nat.eqb_spec k id) as [->|N].
  - now rewrite nth_error_upd_eq.
  - now rewrite nth_error_upd_ne.
Qed.

Lemma apply_refines (s : sparse T) m o : (forall k, sp_get s k = m k) ->
  forall k, sp_get (sp_apply s o) k = map_apply m o k.
Proof.
  intros H k. destruct o as [id v|id v f|id f|f]; cbn [sp_apply map_apply].
  - unfold sp_set. rewrite get_upd by apply grow_length. rewrite get_grow. now rewrite H.
  - unfold sp_entry_or_insert. rewrite get_upd by apply grow_length. rewrite !get_grow. now rewrite !H.
  - unfold sp_modify. pose proof (H id) as Hi. unfold sp_get in Hi.
    destruct (nth_error s id) as [[v|]|] eqn:E.
    + rewrite get_upd by (now apply nth_error_lt in E). rewrite <- Hi, H. reflexivity.
    + rewrite H. destruct (Nat.eqb_spec k id) as [->|]; [|reflexivity]. now rewrite <- Hi.
    + rewrite H. destruct (Nat.eqb_spec k id) as [->|]; [|reflexivity]. now rewrite <- Hi.
  - unfold sp_values_mut, sp_get. rewrite nth_error_map, <- H. unfold sp_get.
    now destruct (nth_error s k) as [[v|]|].
Qed.

(** Every history of operations, from an empty index of any initial capacity, leaves the index
    answering [get] like the finite map that went through the same history. *)
Theorem sparse_is_map (c : nat) (h : list (sp_op T)) (id : nat) :
  sp_get (sp_run (sp_with_capacity c) h) id = fold_left map_apply h (fun _ => None) id.
Proof.
  assert (G : forall (h : list (sp_op T)) (s : sparse T) m, (forall k, sp_get s k = m k) ->
              forall k, sp_get (sp_run s h) k = fold_left map_apply h m k).
  { clear. induction h as [|o h IH]; intros s m H k; [apply H|].
    cbn [sp_run fold_left]. apply (IH (sp_apply s o)). now apply apply_refines. }
  apply G. intros k. apply get_repeat.
Qed.

(** The observers, in any state. *)
Theorem sparse_contains (s : sparse T) id : sp_contains s id = true <-> exists v, sp_get s id = Some v.
Proof.
  unfold sp_contains, sp_get. destruct (nth_error s id) as [[v|]|]; split; intros H.
  - now exists v.
  - reflexivity.
  - discriminate.
  - destruct H as [x Hx]; discriminate.
  - discriminate.
  - destruct H as [x Hx]; discriminate.
Qed.

Theorem sparse_is_empty (s : sparse T) : sp_is_empty s = true <-> forall id, sp_get s id = None.
Proof.
  unfold sp_is_empty. rewrite forallb_forall. split.
  - intros H id. unfold sp_get. destruct (nth_error s id) as [[v|]|] eqn:E; [|reflexivity..].
    apply nth_error_In, H in E. discriminate.
  - intros H x Hx. apply In_nth_error in Hx. destruct Hx as [n Hn].
    specialize (H n). unfold sp_get in H. rewrite Hn in H. now subst.
Qed.

Lemma flatten_map_enum {B} (g : nat -> T -> B) (s : sparse T) : forall n,
  flatten (map (fun p => match snd p with Some v => Some (g (fst p) v) | None => None end) (enum_from n s))
  = map (fun p => g (fst p) (snd p))
      (flatten (map (fun p => match snd p with Some v => Some (fst p, v) | None => None end) (enum_from n s))).
Proof.
  induction s as [|[v|] s IH]; intros n; cbn; [reflexivity| |]; rewrite IH; reflexivity.
Qed.

Lemma iter_from_spec (s : sparse T) : forall n,
  let l := flatten (map (fun p => match snd p with Some v => Some (fst p, v) | None => None end) (enum_from n s)) in
  StronglySorted (fun p q => fst p < fst q) l
  /\ forall k v, In (k, v) l <-> n <= k /\ sp_get s (k - n) = Some v.
Proof.
  induction s as [|o s IH]; intros n; cbv zeta.
  - cbn. split; [constructor|]. intros k v. rewrite get_nil. split; [easy|]. now intros [_ H].
  - destruct (IH (S n)) as [A B]. cbv zeta in A, B. cbn [enum_from map flatten snd fst].
    set (l := flatten _) in A, B.
    assert (G : forall k v, n <= k -> (sp_get (o :: s) (k - n) = Some v <->
                 (k = n /\ o = Some v) \/ (S n <= k /\ sp_get s (k - S n) = Some v))).
    { intros k v Hk. destruct (Nat.eq_dec k n) as [->|N].
      - rewrite Nat.sub_diag. cbn. split; intros H.
        + left. auto.
        + destruct H as [[_ H]|[H _]]; [exact H|lia].
      - replace (k - n) with (S (k - S n)) by lia.
        change (sp_get (o :: s) (S (k - S n))) with (sp_get s (k - S n)).
        split; intros H; [right; split; [lia|exact H]|].
        destruct H as [[H _]|[_ H]]; [lia|exact H]. }
    destruct o as [v0|]; cbn [flatten]; fold l; split.
    + constructor; [exact A|]. apply Forall_forall. intros [k v] Hin. apply B in Hin. cbn. lia.
    + intros k v. cbn [In]. rewrite B. split.
      * intros [H|[H1 H2]].
        -- injection H as <- <-. split; [lia|]. apply G; [lia|]. now left.
        -- split; [lia|]. apply G; [lia|]. now right.
      * intros [H1 H2]. apply G in H2; [|exact H1]. destruct H2 as [[-> H2]|H2]; [left|now right].
        injection H2 as <-. reflexivity.
    + exact A.
    + intros k v. rewrite B. split.
      * intros [H1 H2]. split; [lia|]. apply G; [lia|]. now right.
      * intros [H1 H2]. apply G in H2; [|exact H1]. destruct H2 as [[_ H2]|H2]; [discriminate|exact H2].
Qed.

(** Iteration lists exactly the present pairs, by increasing key. *)
Theorem sparse_iter (s : sparse T) : lists_graph (sp_get s) (sp_iter s).
Proof.
  destruct (iter_from_spec s 0) as [A B]. split; [exact A|].
  intros k v. unfold sp_iter. rewrite B, Nat.sub_0_r. split; [now intros [_ H]|].
  intros H. split; [lia|exact H].
Qed.

Theorem sparse_keys (s : sparse T) : sp_keys s = map fst (sp_iter s).
Proof. unfold sp_keys, sp_iter. now rewrite (flatten_map_enum (fun k _ => k)). Qed.

Theorem sparse_values (s : sparse T) : sp_values s = map snd (sp_iter s).
Proof.
  unfold sp_values, sp_iter. generalize 0. induction s as [|[v|] s IH]; intros n; cbn; [reflexivity| |].
  - f_equal. apply IH.
  - apply IH.
Qed.

Theorem sparse_len (s : sparse T) : sp_len s = length (sp_iter s).
Proof. unfold sp_len. change (flatten s) with (sp_values s). now rewrite sparse_values, map_length. Qed.

(** Building from pairs: a later pair wins. *)
Theorem sparse_from_iter (l : list (nat * T)) id :
  sp_get (sp_from_iter l) id = option_map snd (find (fun p => fst p =? id) (rev l)).
Proof.
  unfold sp_from_iter. rewrite <- (rev_involutive l) at 1. generalize (rev l) as r. clear l.
  induction r as [|[k v] r IH]; [apply get_nil|].
  cbn [rev]. rewrite fold_left_app. cbn [fold_left fst snd find].
  unfold sp_set. rewrite get_upd by apply grow_length. rewrite get_grow.
  rewrite (Nat.eqb_sym k id). destruct (Nat.eqb_spec id k); [reflexivity|]. exact IH.
Qed.

(** Indexing panics exactly on the absent keys. *)
Theorem sparse_index (s : sparse T) id : sp_index s id = None <-> ~ In id (sp_keys s).
Proof.
  unfold sp_index. rewrite sparse_keys, in_map_iff. destruct (sparse_iter s) as [_ B].
  split.
  - intros H [[k v] [E Hin]]. cbn in E. subst k. apply B in Hin. congruence.
  - intros H. destruct (sp_get s id) as [v|] eqn:E; [|reflexivity].
    exfalso. apply H. exists (id, v). split; [reflexivity|]. now apply B.
Qed.

End S.

(** * Array2D *)
Section A.
Context {T : Type}.
(** A well-formed array: the storage has one element per position. *)
Definition a2_wf (a : array2 T) : Prop := length (a2_data a) = a2_rows_f a * a2_cols a.
Variable dflt : T.

Theorem a2_new_wf r c : a2_wf (a2_new dflt r c).
Proof. unfold a2_wf. cbn. apply repeat_length. Qed.

Lemma a2_pos_lt r c i j : i < r -> j < c -> i * c + j < r * c.
Proof. nia. Qed.

(** In range, a new array reads the default everywhere. *)
Theorem a2_new_index r c i j : i < r -> j < c -> a2_index (a2_new dflt r c) i j = Some dflt.
Proof.
  intros Hi Hj. unfold a2_index. cbn. pose proof (a2_pos_lt r c i j Hi Hj) as Hp.
  destruct (nth_error (repeat dflt (r * c)) (i * c + j)) as [x|] eqn:E.
  - apply nth_error_In, repeat_spec in E. now subst.
  - apply nth_error_None in E. rewrite repeat_length in E. lia.
Qed.

(** Assignment in range succeeds, keeps the shape, is read back, and leaves every other in-range
    position alone. *)
Theorem a2_set_get a i j v :
  a2_wf a -> i < a2_rows_f a -> j < a2_cols a ->
  exists a', a2_set a i j v = Some a' /\ a2_wf a'
    /\ a2_rows_f a' = a2_rows_f a /\ a2_cols a' = a2_cols a
    /\ forall i' j', i' < a2_rows_f a -> j' < a2_cols a ->
         a2_index a' i' j' = (if (i' =? i) && (j' =? j) then Some v else a2_index a i' j')
         /\ a2_index a i' j' <> None.
Proof.
  intros W Hi Hj. pose proof (a2_pos_lt _ _ _ _ Hi Hj) as Hp. unfold a2_set.
  destruct (Nat.ltb_spec (i * a2_cols a + j) (length (a2_data a))) as [L|L]; [|unfold a2_wf in W; lia].
  eexists. split; [reflexivity|]. cbn [a2_rows_f a2_cols]. split.
  { unfold a2_wf. cbn. now rewrite upd_length. }
  split; [reflexivity|]. split; [reflexivity|].
  intros i' j' Hi' Hj'. unfold a2_index. cbn [a2_data a2_cols]. split.
  - destruct (Nat.eqb_spec i' i) as [->|Ni]; cbn [andb].
    + destruct (Nat.eqb_spec j' j) as [->|Nj].
      * now apply nth_error_upd_eq.
      * apply nth_error_upd_ne. lia.
    + apply nth_error_upd_ne. nia.
  - rewrite nth_error_None. pose proof (a2_pos_lt _ _ _ _ Hi' Hj'). unfold a2_wf in W. lia.
Qed.

(** A row read is the list of its elements. *)
Theorem a2_get_row_correct a i : a2_wf a -> i < a2_rows_f a ->
  exists row, a2_get_row a i = Some row /\ length row = a2_cols a
    /\ forall j, j < a2_cols a -> nth_error row j = a2_index a i j.
Proof.
  intros W Hi. unfold a2_get_row, slice_range. cbv zeta.
  assert (Hb : i * a2_cols a + a2_cols a <= length (a2_data a)) by (unfold a2_wf in W; nia).
  rewrite (proj2 (Nat.leb_le _ _)) by lia. rewrite (proj2 (Nat.leb_le _ _)) by exact Hb. cbn [andb].
  eexists. split; [reflexivity|].
  replace (i * a2_cols a + a2_cols a - i * a2_cols a) with (a2_cols a) by lia. split.
  - rewrite firstn_length, skipn_length. lia.
  - intros j Hj. unfold a2_index.
    rewrite nth_error_firstn, nth_error_skipn. now rewrite (proj2 (Nat.ltb_lt _ _) Hj).
Qed.

Theorem a2_rows_correct a : a2_wf a -> 0 < a2_cols a -> a2_rows a = Some (a2_rows_f a).
Proof.
  intros W H. unfold a2_rows. destruct (Nat.eqb_spec (a2_cols a) 0); [lia|].
  f_equal. rewrite W. now apply Nat.div_mul.
Qed.

(** Reshaping is accepted exactly for shapes of the same size, and keeps the row-major order:
    positions with the same row-major rank hold the same element. *)
Theorem a2_reshape_correct a r c :
  a2_wf a ->
  match a2_reshape a r c with
  | Some b => r * c = a2_rows_f a * a2_cols a /\ a2_wf b /\ a2_rows_f b = r /\ a2_cols b = c
      /\ forall i j i' j', i < a2_rows_f a -> j < a2_cols a -> i' < r -> j' < c ->
           i * a2_cols a + j = i' * c + j' -> a2_index b i' j' = a2_index a i j
  | None => r * c <> a2_rows_f a * a2_cols a
  end.
Proof.
  intros W. unfold a2_reshape. unfold a2_wf in W. rewrite W.
  destruct (Nat.eqb_spec (r * c) (a2_rows_f a * a2_cols a)) as [E|E]; cbn [negb]; [|exact E].
  split; [exact E|]. split; [unfold a2_wf; cbn; lia|]. split; [reflexivity|]. split; [reflexivity|].
  intros i j i' j' _ _ _ _ Hr. unfold a2_index. cbn [a2_data a2_cols]. now rewrite Hr.
Qed.

Lemma add_row_correct (add : T -> T -> T) sum row : length row = length sum ->
  exists s', add_row add sum row = Some s' /\ length s' = length sum
    /\ forall j x y, nth_error sum j = Some x -> nth_error row j = Some y ->
         nth_error s' j = Some (add x y).
Proof.
  intros Hl. unfold add_row.
  set (ps := combine (seq 0 (length row)) row).
  assert (Lps : length ps = length row) by (unfold ps; rewrite combine_length, seq_length; lia).
  destruct (ofold_inv (fun s p => do x <- nth_error s (fst p); Some (upd s (fst p) (add x (snd p))))
     (fun n s => length s = length sum /\ forall j,
        nth_error s j = if j <? n then match nth_error sum j, nth_error row j with
                                       | Some x, Some y => Some (add x y) | _, _ => None end
                        else nth_error sum j)
     ps sum 0) as [s' [E [L I]]].
  - split; [reflexivity|]. intros j. destruct (Nat.ltb_spec j 0); [lia|reflexivity].
  - intros n b s Hb [L I]. rewrite Nat.add_0_l in I.
    assert (Hn : n < length row) by (apply nth_error_lt in Hb; lia).
    assert (Hy : exists y, nth_error row n = Some y /\ b = (n, y)).
    { destruct (nth_error_ex row n Hn) as [y Hy]. exists y. split; [exact Hy|].
      unfold ps in Hb. assert (C : nth_error (combine (seq 0 (length row)) row) n = Some (n, y)).
      { clear - Hy Hn. assert (G : forall k (l : list T) n y, n < length l -> nth_error l n = Some y ->
            nth_error (combine (seq k (length l)) l) n = Some (k + n, y)).
        { intros k l. revert k. induction l as [|z l IH]; intros k m w Hm Hw; [cbn in Hm; lia|].
          destruct m as [|m]; cbn in *.
          - injection Hw as ->. now rewrite Nat.add_0_r.
          - rewrite (IH (S k) m w) by (try lia; exact Hw). do 2 f_equal. lia. }
        rewrite (G 0 row n y Hn Hy). reflexivity. }
      congruence. }
    destruct Hy as [y [Hy ->]]. cbn [fst snd].
    destruct (nth_error_ex sum n) as [x Hx]; [lia|].
    exists (upd s n (add x y)). split.
    + rewrite I. destruct (Nat.ltb_spec n n); [lia|]. rewrite Hx. reflexivity.
    + split; [now rewrite upd_length|]. intros j. destruct (Nat.eq_dec j n) as [->|N].
      * rewrite nth_error_upd_eq by lia. destruct (Nat.ltb_spec n (0 + S n)); [|lia].
        now rewrite Hx, Hy.
      * rewrite nth_error_upd_ne by exact N. rewrite I.
        destruct (Nat.ltb_spec j n), (Nat.ltb_spec j (0 + S n)); try lia; reflexivity.
  - exists s'. split; [exact E|]. split; [exact L|]. intros j x y Hx Hy. rewrite I.
    apply nth_error_lt in Hy as Hj. destruct (Nat.ltb_spec j (0 + length ps)); [|lia].
    now rewrite Hx, Hy.
Qed.

(** [sum_rows] returns one entry per column: the column summed from the top. *)
Theorem a2_sum_rows_correct (add : T -> T -> T) a : a2_wf a ->
  exists s, a2_sum_rows dflt add a = Some s /\ length s = a2_cols a
    /\ forall j, j < a2_cols a -> exists col,
         length col = a2_rows_f a
         /\ (forall i, i < a2_rows_f a -> nth_error col i = a2_index a i j)
         /\ nth_error s j = Some (fold_left add col dflt).
Proof.
  intros W. unfold a2_sum_rows, a2_iter_rows.
  assert (R : exists rows, omap (a2_get_row a) (seq 0 (a2_rows_f a)) = Some rows
     /\ length rows = a2_rows_f a
     /\ forall i, i < a2_rows_f a -> nth_error rows i = a2_get_row a i).
  { assert (G : forall n k, k + n <= a2_rows_f a -> exists rows,
        omap (a2_get_row a) (seq k n) = Some rows /\ length rows = n
        /\ forall i, i < n -> nth_error rows i = a2_get_row a (k + i)).
    { induction n as [|n IH]; intros k Hk.
      - exists []. split; [reflexivity|]. split; [reflexivity|]. intros i Hi. lia.
      - destruct (IH (S k)) as [rows [E [L I]]]; [lia|].
        destruct (a2_get_row_correct a k W) as [row [Er _]]; [lia|].
        exists (row :: rows). cbn [seq omap]. rewrite Er, E. split; [reflexivity|].
        split; [cbn; lia|]. intros [|i] Hi; cbn [nth_error].
        + now rewrite Nat.add_0_r.
        + rewrite I by lia. now rewrite Nat.add_succ_comm. }
    exact (G (a2_rows_f a) 0 (le_n _)). }
  destruct R as [rows [E [L I]]]. rewrite E. cbn [obind].
  assert (G : forall n, n <= a2_rows_f a ->
     exists s, ofold (add_row add) (firstn n rows) (repeat dflt (a2_cols a)) = Some s
       /\ length s = a2_cols a
       /\ forall j, j < a2_cols a -> exists col, length col = n
            /\ (forall i, i < n -> nth_error col i = a2_index a i j)
            /\ nth_error s j = Some (fold_left add col dflt)).
  { induction n as [|n IH]; intros Hn.
    - exists (repeat dflt (a2_cols a)). split; [reflexivity|]. split; [apply repeat_length|].
      intros j Hj. exists []. split; [reflexivity|]. split; [intros i Hi; lia|].
      cbn. now apply nth_error_repeat.
    - destruct IH as [s [Es [Ls Is]]]; [lia|].
      destruct (a2_get_row_correct a n W) as [row [Er [Lr Ir]]]; [lia|].
      assert (F : firstn (S n) rows = firstn n rows ++ [row]).
      { pose proof (I n ltac:(lia)) as In'. rewrite Er in In'. apply nth_error_split in In'.
        destruct In' as [l1 [l2 [-> Hl]]]. subst n.
        rewrite firstn_app, firstn_all2 by lia. rewrite firstn_app, firstn_all.
        replace (S (length l1) - length l1) with 1 by lia. rewrite Nat.sub_diag. cbn.
        now rewrite app_nil_r. }
      rewrite F, ofold_app, Es. cbn [obind ofold].
      destruct (add_row_correct add s row) as [s' [Ea [La Ia]]]; [congruence|].
      rewrite Ea. exists s'. split; [reflexivity|]. split; [congruence|].
      intros j Hj. destruct (Is j Hj) as [col [Lc [Ic Sc]]].
      destruct (nth_error_ex row j) as [y Hy]; [lia|].
      exists (col ++ [y]). split; [rewrite app_length; cbn; lia|]. split.
      + intros i Hi. destruct (Nat.eq_dec i n) as [->|N].
        * rewrite nth_error_app2 by lia. rewrite Lc, Nat.sub_diag. cbn. rewrite <- Hy. now apply Ir.
        * rewrite nth_error_app1 by lia. apply Ic. lia.
      + rewrite fold_left_app. cbn [fold_left]. now apply Ia. }
  destruct (G (a2_rows_f a) (le_n _)) as [s [Es Hs]].
  rewrite firstn_all2 in Es by lia. exists s. now split.
Qed.
End A.

(** An out-of-range column is not detected: indexing a 2 by 3 array at column 3 of row 0 reads row
    1, and writing there changes row 1. *)
Theorem a2_index_out_of_range_refuted :
  exists (a : array2 nat) a', a2_wf a /\ a2_cols a = 3
    /\ a2_index a 0 3 = a2_index a 1 0 /\ a2_index a 0 3 = Some 13
    /\ a2_set a 0 3 99 = Some a' /\ a2_index a' 1 0 = Some 99.
Proof.
  exists (mkA2 [10; 11; 12; 13; 14; 15] 2 3). eexists.
  split; [reflexivity|]. split; [reflexivity|]. split; [reflexivity|]. split; [reflexivity|].
  split; reflexivity.
Qed.

(** The row count of an array without columns panics (it divides by zero). *)
Theorem a2_rows_no_columns_refuted : exists a : array2 nat, a2_wf a /\ a2_rows_f a = 4 /\ a2_rows a = None.
Proof. exists (a2_new 0 4 0). split; [reflexivity|]. split; reflexivity. Qed.

(** * Strided views *)
(** A view over columns [sv_start .. sv_end) of a [sv_h] by [sv_dw] array. *)
Definition sv_wf (v : sview) : Prop :=
  sv_start v <= sv_end v /\ sv_end v <= sv_dw v /\ sv_len v = sv_dw v * sv_h v.

Theorem sv_without_stride_correct len h w :
  match sv_without_stride len h w with
  | Some v => len = w * h /\ sv_wf v /\ sv_h v = h /\ sv_width v = w
      /\ forall i j, i < h -> j < w -> sv_index v i j = Some (i * w + j)
  | None => len <> w * h
  end.
Proof.
  unfold sv_without_stride. destruct (Nat.eqb_spec (w * h) len) as [E|E]; cbn [negb]; [|lia].
  split; [lia|]. split; [unfold sv_wf; cbn; lia|]. split; [reflexivity|].
  split; [unfold sv_width; cbn; lia|].
  intros i j Hi Hj. unfold sv_index, sv_width, sv_offset. cbn [sv_h sv_end sv_start sv_dw].
  rewrite (proj2 (Nat.ltb_lt _ _)) by exact Hi. rewrite (proj2 (Nat.ltb_lt _ _)) by lia. cbn [andb].
  f_equal. lia.
Qed.

Lemma sv_index_some v i j o : sv_index v i j = Some o <->
  i < sv_h v /\ j < sv_width v /\ o = sv_offset v i j.
Proof.
  unfold sv_index. destruct (Nat.ltb_spec i (sv_h v)), (Nat.ltb_spec j (sv_width v)); cbn [andb];
    split; intros H1; try discriminate; try (injection H1 as <-; auto); try lia.
  destruct H1 as [_ [_ ->]]. reflexivity.
Qed.

(** Every element a view addresses is inside the array (so the unchecked accesses are in bounds). *)
Theorem sv_in_bounds v i j o : sv_wf v -> sv_index v i j = Some o -> o < sv_len v.
Proof.
  intros [W1 [W2 W3]] H. apply sv_index_some in H. destruct H as [Hi [Hj ->]].
  unfold sv_offset, sv_width in *. rewrite W3. nia.
Qed.

Lemma euclid_unique w i j i' j' : j < w -> j' < w -> i * w + j = i' * w + j' -> i = i' /\ j = j'.
Proof. intros. assert (i = i') by nia. subst. split; [reflexivity|lia]. Qed.

(** A column iterator yields exactly that column. *)
Theorem sv_column_correct v col l : sv_column v col = Some l ->
  length l = sv_h v /\ forall i, i < sv_h v -> nth_error l i = sv_index v i col.
Proof.
  unfold sv_column. destruct (Nat.ltb_spec col (sv_width v)) as [H|H]; [|discriminate].
  cbv zeta. intros E. injection E as <-. split; [now rewrite map_length, seq_length|].
  intros i Hi. rewrite nth_error_map, nth_error_seq.
  rewrite (proj2 (Nat.ltb_lt _ _)) by exact Hi. cbn [option_map].
  symmetry. apply sv_index_some. split; [exact Hi|]. split; [exact H|]. unfold sv_offset. lia.
Qed.

Lemma step_by_some s e st l : step_by s e st = Some l <->
  st <> 0 /\ l = map (fun k => s + k * st) (seq 0 ((e - s + (st - 1)) / st)).
Proof.
  unfold step_by. destruct (Nat.eqb_spec st 0); split; intros H; try discriminate; try easy.
  - injection H as <-. now split.
  - destruct H as [_ ->]. reflexivity.
Qed.

Lemma ceil_lt k n st : st <> 0 -> (k < (n + (st - 1)) / st <-> k * st < n).
Proof.
  intros H. split; intros H1.
  - assert ((n + (st - 1)) / st * st <= n + (st - 1)) by
      (rewrite Nat.mul_comm; apply Nat.mul_div_le; exact H). nia.
  - apply Nat.lt_le_trans with (S k); [lia|]. apply Nat.div_le_lower_bound; [exact H|]. nia.
Qed.

(** Splitting a view into strides: it fails exactly for stride 0; the pieces are well-formed views
    of the same array and height, each piece is at most [stride] wide and not empty, every element
    of the view belongs to a piece, nothing else does, and no element is addressed by two pieces or
    by two positions of one piece. *)
Theorem strides_partition v stride : sv_wf v ->
  match sv_into_strides v stride with
  | None => stride = 0
  | Some vs => stride <> 0
      /\ (forall k w, nth_error vs k = Some w ->
            sv_wf w /\ sv_len w = sv_len v /\ sv_h w = sv_h v /\ 0 < sv_width w <= stride)
      /\ (forall o, (exists i j, sv_index v i j = Some o) <->
                    (exists k w i j, nth_error vs k = Some w /\ sv_index w i j = Some o))
      /\ (forall k w i j k' w' i' j' o,
            nth_error vs k = Some w -> nth_error vs k' = Some w' ->
            sv_index w i j = Some o -> sv_index w' i' j' = Some o ->
            k = k' /\ i = i' /\ j = j')
  end.
Proof.
  intros [W1 [W2 W3]]. unfold sv_into_strides.
  destruct (step_by (sv_start v) (sv_end v) stride) as [l|] eqn:E; cbn [obind].
  2: { unfold step_by in E. destruct (Nat.eqb_spec stride 0); [assumption|discriminate]. }
  apply step_by_some in E. destruct E as [Hs ->]. split; [exact Hs|].
  set (cnt := (sv_end v - sv_start v + (stride - 1)) / stride).
  rewrite map_map. set (piece := fun k => mkSv (sv_len v) (sv_dw v) (sv_h v) (sv_start v + k * stride)
     (Nat.min (sv_start v + k * stride + stride) (sv_end v))).
  change (map _ (seq 0 cnt)) with (map piece (seq 0 cnt)).
  assert (P : forall k w, nth_error (map piece (seq 0 cnt)) k = Some w ->
            k * stride < sv_end v - sv_start v /\ w = piece k).
  { intros k w H. rewrite nth_error_map, nth_error_seq in H.
    destruct (Nat.ltb_spec k cnt) as [L|L]; [|discriminate]. injection H as <-.
    split; [|reflexivity]. now apply ceil_lt. }
  split; [|split].
  - intros k w H. apply P in H. destruct H as [Hk ->]. unfold sv_wf, sv_width, piece; cbn. lia.
  - intros o. split.
    + intros [i [j H]]. apply sv_index_some in H. destruct H as [Hi [Hj ->]]. unfold sv_width in Hj.
      exists (j / stride), (piece (j / stride)), i, (j mod stride).
      pose proof (Nat.div_mod j stride Hs) as D. pose proof (Nat.mod_upper_bound j stride Hs) as M.
      split.
      * rewrite nth_error_map, nth_error_seq.
        rewrite (proj2 (Nat.ltb_lt _ _)); [reflexivity|]. apply ceil_lt; [exact Hs|]. lia.
      * apply sv_index_some. unfold sv_width, sv_offset, piece; cbn. lia.
    + intros [k [w [i [j [H1 H2]]]]]. apply P in H1. destruct H1 as [Hk ->].
      apply sv_index_some in H2. unfold sv_width, sv_offset, piece in H2; cbn in H2.
      exists i, (j + k * stride). apply sv_index_some. unfold sv_width, sv_offset. lia.
  - intros k w i j k' w' i' j' o H1 H1' H2 H2'.
    apply P in H1. destruct H1 as [Hk ->]. apply P in H1'. destruct H1' as [Hk' ->].
    apply sv_index_some in H2, H2'. unfold sv_width, sv_offset, piece in H2, H2'; cbn in H2, H2'.
    destruct H2 as [Hi [Hj ->]]. destruct H2' as [Hi' [Hj' Ho]].
    destruct (euclid_unique (sv_dw v) i (j + (sv_start v + k * stride)) i' (j' + (sv_start v + k' * stride)))
      as [Ei Ej]; [lia|lia|lia|].
    destruct (euclid_unique stride k j k' j') as [Ek Ej2]; [lia|lia|lia|]. auto.
Qed.

(** Non-trivial cases: a 3 by 7 array cut in strides of 3 (widths 3, 3, 1), and a sparse index
    history. *)
Fact strides_ex : exists v, sv_without_stride 21 3 7 = Some v /\ sv_wf v
  /\ option_map (map (fun w => sv_width w)) (sv_into_strides v 3) = Some [3; 3; 1]
  /\ option_map (fun vs => map (fun w => sv_index w 2 0) vs) (sv_into_strides v 3) = Some [Some 14; Some 17; Some 20].
Proof. eexists. split; [reflexivity|]. split; [unfold sv_wf; cbn; lia|]. split; reflexivity. Qed.

Fact sparse_ex :
  let s := sp_run (sp_with_capacity 1) [OpSet 3 10; OpEntry 1 5 S; OpEntry 3 0 (Nat.add 2); OpModify 7 S; OpValuesMut (Nat.mul 2)] in
  sp_iter s = [(1, 12); (3, 24)] /\ sp_len s = 2 /\ sp_get s 7 = None /\ sp_keys s = [1; 3].
Proof. repeat split. Qed.

Fact array_ex : let a := mkA2 [1; 2; 3; 4; 5; 6] 2 3 in
  a2_wf a /\ a2_sum_rows 0 Nat.add a = Some [5; 7; 9] /\ a2_get_row a 1 = Some [4; 5; 6]
  /\ option_map (fun b => a2_index b 2 1) (a2_reshape a 3 2) = Some (Some 6).
Proof. repeat split. Qed.
