(** C51, first part: square_transpose transposes. *)
Require Import Coq.Arith.Arith Coq.Lists.List Coq.Bool.Bool Lia.
From Verif Require Import Base.Fld Base.Lists Base.Sums Base.NatBits RingSwitch.TensorModel.
Import ListNotations.
Local Open Scope nat_scope.

Section Transpose.
  Context {A : Type}.
  Variable d : A.
  (** Scalar [l] of element [idx]. *)
  Definition at_ (elems : list (list A)) (idx l : nat) : A := nth l (nth idx elems []) d.
  Definition shape (lw n : nat) (elems : list (list A)) : Prop := length elems = n /\ Forall (fun e => length e = 2 ^ lw) elems.

  Lemma pairs_in log_n log_w i p : In p (pairs log_n log_w i) <-> exists j k, j < 2 ^ (log_n - i - 1) /\ k < 2 ^ (log_w + i) /\ p = (j * 2 ^ (log_w + i + 1) + k, j * 2 ^ (log_w + i + 1) + k + 2 ^ (log_w + i)).
  Proof.
    unfold pairs. rewrite in_flat_map. split.
    - intros (j & Hj & H). apply in_map_iff in H. destruct H as (k & <- & Hk). apply in_seq in Hj, Hk. exists j, k. repeat split; lia.
    - intros (j & k & Hj & Hk & ->). exists j. split; [apply in_seq; lia|]. apply in_map_iff. exists k. split; [reflexivity|apply in_seq; lia].
  Qed.
  Lemma pairs_fst_inj log_n log_w i p q : In p (pairs log_n log_w i) -> In q (pairs log_n log_w i) -> fst p = fst q -> p = q.
  Proof. rewrite !pairs_in. intros (j & k & Hj & Hk & ->) (j' & k' & Hj' & Hk' & ->). cbn [fst]. intros E. rewrite E. reflexivity. Qed.
  Lemma pairs_nodup log_n log_w i : NoDup (pairs log_n log_w i).
  Proof.
    unfold pairs. rewrite flat_map_concat_map.
    set (f := fun p : nat * nat => (fst p * 2 ^ (log_w + i + 1) + snd p, fst p * 2 ^ (log_w + i + 1) + snd p + 2 ^ (log_w + i))).
    assert (E : forall l1, concat (map (fun j => map (fun k => (j * 2 ^ (log_w + i + 1) + k, j * 2 ^ (log_w + i + 1) + k + 2 ^ (log_w + i))) (seq 0 (2 ^ (log_w + i)))) l1) = map f (list_prod l1 (seq 0 (2 ^ (log_w + i))))).
    { induction l1 as [|a l1 IH]; [reflexivity|]. cbn [map concat list_prod]. rewrite IH, map_app, map_map. reflexivity. }
    rewrite E. apply NoDup_map_in; [apply NoDup_list_prod; apply seq_NoDup|].
    intros [j k] [j' k'] H H' Ef. apply in_prod_iff in H, H'. rewrite !in_seq in H, H'. unfold f in Ef. cbn [fst snd] in Ef. injection Ef as E1 _.
    assert (P : 2 ^ (log_w + i + 1) = 2 * 2 ^ (log_w + i)) by (rewrite Nat.add_1_r; apply Nat.pow_succ_r').
    assert (j = j') by nia. subst j'. f_equal. lia.
  Qed.

  Lemma nth_at elems idx e l : nth_error elems idx = Some e -> at_ elems idx l = nth l e d.
  Proof. intros H. unfold at_. now rewrite (nth_error_nth elems idx [] H). Qed.
  Definition b2 (b : bool) := if b then 1 else 0.

  (** One round exchanges bit [i] of the lane with bit [log_w + i] of the index. *)
  Lemma round_spec lw log_n log_w i elems : i < log_n -> log_n <= lw -> shape lw (2 ^ (log_w + log_n)) elems ->
    exists r, ofold (pair_step (fun _ _ => interleave d lw i)) (pairs log_n log_w i) elems = Some r /\ shape lw (2 ^ (log_w + log_n)) r /\
      forall h b k g c s, h < 2 ^ (log_n - i - 1) -> k < 2 ^ (log_w + i) -> g < 2 ^ (lw - i - 1) -> s < 2 ^ i ->
        at_ r (h * 2 ^ (log_w + i + 1) + b2 b * 2 ^ (log_w + i) + k) (g * 2 ^ (i + 1) + b2 c * 2 ^ i + s) =
        at_ elems (h * 2 ^ (log_w + i + 1) + b2 c * 2 ^ (log_w + i) + k) (g * 2 ^ (i + 1) + b2 b * 2 ^ i + s).
  Proof.
    intros Hi Hn [HL HE].
    set (P := 2 ^ (log_w + i)). assert (PP : 2 ^ (log_w + i + 1) = 2 * P) by (unfold P; rewrite Nat.add_1_r; apply Nat.pow_succ_r').
    assert (P0 : 0 < P) by (apply pow2_pos).
    assert (TOT : 2 ^ (log_w + log_n) = 2 ^ (log_n - i - 1) * (2 * P)).
    { rewrite <- PP, <- Nat.pow_add_r. f_equal. lia. }
    destruct (pairs_fold (fun _ _ => interleave d lw i) (pairs log_n log_w i) elems) as (r & E & L & HP & HO).
    - apply pairs_nodup.
    - intros p Hp. apply pairs_in in Hp. destruct Hp as (j & k & Hj & Hk & ->). cbn [fst snd]. rewrite HL, TOT, PP. fold P in Hk |- *. repeat split; nia.
    - intros p q Hp Hq NE. apply pairs_in in Hp, Hq. destruct Hp as (j & k & Hj & Hk & ->), Hq as (j' & k' & Hj' & Hk' & ->). cbn [fst snd]. rewrite PP in *. fold P in Hk, Hk', NE |- *.
      assert (N : j <> j' \/ k <> k') by (destruct (Nat.eq_dec j j') as [->|]; [destruct (Nat.eq_dec k k') as [->|]; [now destruct NE|auto]|auto]).
      destruct N as [N|N]; [assert (j < j' \/ j' < j) by lia; repeat split; nia|].
      destruct (Nat.eq_dec j j') as [->|]; [repeat split; nia|]. assert (j < j' \/ j' < j) by lia; repeat split; nia.
    - intros p x y _ _ _. unfold interleave. destruct (Nat.ltb_spec i lw); [eauto|lia].
    - exists r. split; [exact E|].
      assert (VAL : forall h k, h < 2 ^ (log_n - i - 1) -> k < P -> exists x y, nth_error elems (h * (2 * P) + k) = Some x /\ nth_error elems (h * (2 * P) + k + P) = Some y /\
        nth_error r (h * (2 * P) + k) = Some (map (fun l => if Nat.testbit l i then nth (l - 2 ^ i) y d else nth l x d) (seq 0 (2 ^ lw))) /\
        nth_error r (h * (2 * P) + k + P) = Some (map (fun l => if Nat.testbit l i then nth l y d else nth (l + 2 ^ i) x d) (seq 0 (2 ^ lw)))).
      { intros h k Hh Hk. assert (B : h * (2 * P) + k + P < length elems) by (rewrite HL, TOT; nia).
        destruct (nth_error_ex elems (h * (2 * P) + k) ltac:(lia)) as [x Ex]. destruct (nth_error_ex elems _ B) as [y Ey]. exists x, y. split; [exact Ex|]. split; [exact Ey|].
        destruct (HP (h * 2 ^ (log_w + i + 1) + k, h * 2 ^ (log_w + i + 1) + k + P) x y) as (x' & y' & Ef & E1 & E2); cbn [fst snd]; try (rewrite PP; assumption).
        - apply pairs_in. exists h, k. auto.
        - cbn [fst snd] in E1, E2. rewrite PP in E1, E2. unfold interleave in Ef. destruct (Nat.ltb_spec i lw); [|lia]. injection Ef as <- <-. auto. }
      split.
      + split; [now rewrite L|]. apply Forall_nth. intros idx df Hidx. rewrite L, HL in Hidx.
        assert (HH : idx / (2 * P) < 2 ^ (log_n - i - 1)) by (apply Nat.div_lt_upper_bound; lia).
        pose proof (Nat.div_mod idx (2 * P) ltac:(lia)) as DM. pose proof (Nat.mod_upper_bound idx (2 * P) ltac:(lia)) as MB.
        destruct (Nat.lt_ge_cases (idx mod (2 * P)) P) as [C|C].
        * destruct (VAL (idx / (2 * P)) (idx mod (2 * P)) HH C) as (x & y & _ & _ & R1 & _). replace (idx / (2 * P) * (2 * P) + idx mod (2 * P)) with idx in R1 by lia. rewrite (nth_error_nth _ _ df R1). now rewrite map_length, seq_length.
        * destruct (VAL (idx / (2 * P)) (idx mod (2 * P) - P) HH ltac:(lia)) as (x & y & _ & _ & _ & R1). replace (idx / (2 * P) * (2 * P) + (idx mod (2 * P) - P) + P) with idx in R1 by lia. rewrite (nth_error_nth _ _ df R1). now rewrite map_length, seq_length.
      + intros h b k g c s Hh Hk Hg Hs. fold P in Hk |- *. rewrite PP. destruct (VAL h k Hh Hk) as (x & y & X & Y & R0 & R1).
        assert (PI : 2 ^ (i + 1) = 2 * 2 ^ i) by (rewrite Nat.add_1_r; apply Nat.pow_succ_r'). 
        assert (LB : forall c, g * 2 ^ (i + 1) + b2 c * 2 ^ i + s < 2 ^ lw).
        { intros c'. assert (EL : 2 ^ lw = 2 ^ (i + 1) * 2 ^ (lw - i - 1)) by (rewrite <- Nat.pow_add_r; f_equal; lia). rewrite EL. assert (b2 c' <= 1) by (destruct c'; cbn; lia). rewrite PI. nia. }
        assert (TB : forall c, Nat.testbit (g * 2 ^ (i + 1) + b2 c * 2 ^ i + s) i = c).
        { intros c'. rewrite Nat.add_1_r. destruct c'; cbn [b2]; [rewrite Nat.mul_1_l; now apply bit_set|rewrite Nat.mul_0_l, Nat.add_0_r; now apply bit_clear]. }
        destruct b; cbn [b2]; rewrite ?Nat.mul_1_l, ?Nat.mul_0_l, ?Nat.add_0_r.
        * replace (h * (2 * P) + P + k) with (h * (2 * P) + k + P) by lia. rewrite (nth_at r _ _ _ R1). rewrite (nth_map_seq (fun l => if Nat.testbit l i then nth l y d else nth (l + 2 ^ i) x d)) by apply LB. rewrite TB.
          destruct c; cbn [b2]; rewrite ?Nat.mul_1_l, ?Nat.mul_0_l, ?Nat.add_0_r.
          -- replace (h * (2 * P) + P + k) with (h * (2 * P) + k + P) by lia. rewrite (nth_at elems _ _ _ Y). reflexivity.
          -- rewrite (nth_at elems _ _ _ X). f_equal. lia.
        * rewrite (nth_at r _ _ _ R0). rewrite (nth_map_seq (fun l => if Nat.testbit l i then nth (l - 2 ^ i) y d else nth l x d)) by apply LB. rewrite TB.
          destruct c; cbn [b2]; rewrite ?Nat.mul_1_l, ?Nat.mul_0_l, ?Nat.add_0_r.
          -- replace (h * (2 * P) + P + k) with (h * (2 * P) + k + P) by lia. rewrite (nth_at elems _ _ _ Y). f_equal. lia.
          -- rewrite (nth_at elems _ _ _ X). reflexivity.
  Qed.

  Lemma rounds_spec lw log_n log_w elems : log_n <= lw -> shape lw (2 ^ (log_w + log_n)) elems -> forall m, m <= log_n ->
    exists r, ofold (fun elems i => ofold (pair_step (fun _ _ => interleave d lw i)) (pairs log_n log_w i) elems) (seq 0 m) elems = Some r /\ shape lw (2 ^ (log_w + log_n)) r /\
      forall h y k g x, h < 2 ^ (log_n - m) -> y < 2 ^ m -> k < 2 ^ log_w -> g < 2 ^ (lw - m) -> x < 2 ^ m ->
        at_ r (h * 2 ^ (log_w + m) + y * 2 ^ log_w + k) (g * 2 ^ m + x) = at_ elems (h * 2 ^ (log_w + m) + x * 2 ^ log_w + k) (g * 2 ^ m + y).
  Proof.
    intros Hn HS. induction m as [|m IH]; intros Hm.
    - exists elems. split; [reflexivity|]. split; [exact HS|]. intros h y k g x _ Hy _ _ Hx. cbn in Hy, Hx. replace y with 0 by lia. replace x with 0 by lia. reflexivity.
    - destruct (IH ltac:(lia)) as (r & E & Sh & H). rewrite seq_S, ofold_app, E. cbn [obind Nat.add ofold].
      destruct (round_spec lw log_n log_w m r ltac:(lia) Hn Sh) as (r' & E' & S' & H'). exists r'. rewrite E'. split; [reflexivity|]. split; [exact S'|].
      intros h y k g x Hh Hy Hk Hg Hx.
      assert (PM : 2 ^ S m = 2 * 2 ^ m) by apply Nat.pow_succ_r'. assert (PW : 2 ^ (log_w + m) = 2 ^ log_w * 2 ^ m) by apply Nat.pow_add_r.
      assert (PW' : 2 ^ (log_w + S m) = 2 * (2 ^ log_w * 2 ^ m)) by (rewrite Nat.pow_add_r, PM; lia).
      assert (PW1 : 2 ^ (log_w + m + 1) = 2 * (2 ^ log_w * 2 ^ m)) by (rewrite Nat.add_1_r, Nat.pow_succ_r', PW; lia).
      assert (PM1 : 2 ^ (m + 1) = 2 * 2 ^ m) by (rewrite Nat.add_1_r; exact PM).
      assert (SP : forall z, z < 2 ^ S m -> exists b z', z = b2 b * 2 ^ m + z' /\ z' < 2 ^ m).
      { intros z Hz. destruct (Nat.lt_ge_cases z (2 ^ m)); [exists false, z; cbn; lia|exists true, (z - 2 ^ m); cbn; lia]. }
      destruct (SP y Hy) as (b & y' & -> & Hy'). destruct (SP x Hx) as (c & x' & -> & Hx').
      assert (KB : forall z, z < 2 ^ m -> z * 2 ^ log_w + k < 2 ^ (log_w + m)) by (intros z Hz; rewrite PW; nia).
      specialize (H' h b (y' * 2 ^ log_w + k) g c x'). rewrite PW, PW1, PM1 in H'.
      replace (h * 2 ^ (log_w + S m) + (b2 b * 2 ^ m + y') * 2 ^ log_w + k) with (h * (2 * (2 ^ log_w * 2 ^ m)) + b2 b * (2 ^ log_w * 2 ^ m) + (y' * 2 ^ log_w + k)) by (rewrite PW'; lia).
      replace (g * 2 ^ S m + (b2 c * 2 ^ m + x')) with (g * (2 * 2 ^ m) + b2 c * 2 ^ m + x') by (rewrite PM; lia).
      rewrite H'; [|replace (log_n - m - 1) with (log_n - S m) by lia; exact Hh|specialize (KB y' Hy'); rewrite PW in KB; exact KB|replace (lw - m - 1) with (lw - S m) by lia; exact Hg|exact Hx'].
      assert (B1 : forall q, b2 q <= 1) by (intros []; cbn; lia).
      specialize (H (2 * h + b2 c) y' k (2 * g + b2 b) x'). rewrite PW in H.
      replace (h * (2 * (2 ^ log_w * 2 ^ m)) + b2 c * (2 ^ log_w * 2 ^ m) + (y' * 2 ^ log_w + k)) with ((2 * h + b2 c) * (2 ^ log_w * 2 ^ m) + y' * 2 ^ log_w + k) by lia.
      replace (g * (2 * 2 ^ m) + b2 b * 2 ^ m + x') with ((2 * g + b2 b) * 2 ^ m + x') by lia.
      rewrite H; auto.
      + f_equal; [rewrite PW'; lia|rewrite PM; lia].
      + replace (log_n - m) with (S (log_n - S m)) by lia. rewrite Nat.pow_succ_r'. specialize (B1 c). lia.
      + replace (lw - m) with (S (lw - S m)) by lia. rewrite Nat.pow_succ_r'. specialize (B1 b). lia.
  Qed.

  (** square_transpose: a matrix of packed elements with [2^log_n] rows of [2^log_w] elements of [2^lw] scalars is cut into
      square blocks of [2^log_n] columns, and every block is transposed: scalar [g * 2^log_n + x] of element [k] in row [y]
      becomes scalar [g * 2^log_n + y] of element [k] in row [x]. *)
  Theorem square_transpose_correct lw log_n log_w elems : log_n <= lw -> length elems = 2 ^ (log_w + log_n) -> Forall (fun e => length e = 2 ^ lw) elems ->
    exists r, square_transpose d lw log_n elems = Ok r /\ length r = length elems /\ Forall (fun e => length e = 2 ^ lw) r /\
      forall y k g x, y < 2 ^ log_n -> k < 2 ^ log_w -> g < 2 ^ (lw - log_n) -> x < 2 ^ log_n ->
        nth (g * 2 ^ log_n + x) (nth (y * 2 ^ log_w + k) r []) d = nth (g * 2 ^ log_n + y) (nth (x * 2 ^ log_w + k) elems []) d.
  Proof.
    intros Hn HL HE. unfold square_transpose. destruct (Nat.ltb_spec lw log_n); [lia|]. rewrite HL, Nat.log2_pow2, Nat.eqb_refl by lia. cbn [negb].
    destruct (Nat.ltb_spec (log_w + log_n) log_n); [lia|]. replace (log_w + log_n - log_n) with log_w by lia.
    destruct (rounds_spec lw log_n log_w elems Hn (conj HL HE) log_n (le_n _)) as (r & E & [S1 S2] & H1). rewrite E. exists r. split; [reflexivity|]. split; [exact S1|]. split; [exact S2|].
    intros y k g x Hy Hk Hg Hx. specialize (H1 0 y k g x). rewrite Nat.sub_diag in H1. apply H1; auto.
  Qed.
  (** It returns an error exactly when the block does not fit the packing width or the number of elements. *)
  Theorem square_transpose_rejects lw log_n elems : square_transpose d lw log_n elems = Err <-> (lw < log_n \/ ~ (exists k, length elems = 2 ^ k) \/ length elems < 2 ^ log_n).
  Proof.
    unfold square_transpose. destruct (Nat.ltb_spec lw log_n); [split; auto|].
    destruct (Nat.eqb_spec (length elems) (2 ^ Nat.log2 (length elems))) as [E|E]; cbn [negb].
    - destruct (Nat.ltb_spec (Nat.log2 (length elems)) log_n) as [L|L].
      + split; [|reflexivity]. intros _. right. right. rewrite E. now apply pow2_lt.
      + split.
        * destruct (ofold _ _ _); discriminate.
        * intros [?|[N|N]]; [lia|destruct N; eauto|]. rewrite E in N. apply pow2_lt_inv in N. lia.
    - split; [|reflexivity]. intros _. right. left. intros [k Hk]. apply E. rewrite Hk. rewrite Nat.log2_pow2 by lia. reflexivity.
  Qed.
End Transpose.

(** Four rows of two elements with four scalars each: two 4 by 4 blocks. *)
Example square_transpose_ex : square_transpose 0 2 2 (map (fun r => map (fun c => 10 * r + c) (seq 0 4)) (seq 0 8)) =
  Ok [[0; 20; 40; 60]; [10; 30; 50; 70]; [1; 21; 41; 61]; [11; 31; 51; 71]; [2; 22; 42; 62]; [12; 32; 52; 72]; [3; 23; 43; 63]; [13; 33; 53; 73]].
Proof. reflexivity. Qed.
