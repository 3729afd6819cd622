(** C62: the connected-component labelling maps every node to the smallest node connected to it, for
    every family of node sets. *)
Require Import Coq.Arith.Arith Coq.Lists.List Coq.Bool.Bool Coq.Relations.Relations Lia.
Require Import Verif.Base.Lists.
Require Import Verif.Utils.GraphModel.
Import ListNotations.

(** * Specification *)
(** Two nodes are adjacent when some input set contains both; connected is the closure. *)
Definition adjacent (data : list (list nat)) (x y : nat) : Prop :=
  exists ids, In ids data /\ In x ids /\ In y ids.
Definition connected (data : list (list nat)) : nat -> nat -> Prop :=
  clos_refl_sym_trans nat (adjacent data).

(** * Proof *)
Section Inv.
Variable n : nat.

(** [rt] maps every node to the root of its tree. *)
Record good (u : uf) (rt : nat -> nat) : Prop := {
  g_lp : length (uf_parent u) = n;
  g_lr : length (uf_rank u) = n;
  g_lm : length (uf_min u) = n;
  g_p : forall x, x < n -> nth x (uf_parent u) 0 < n;
  g_r : forall x, x < n -> rt x < n;
  g_rp : forall x, x < n -> rt (nth x (uf_parent u) 0) = rt x;
  g_pr : forall x, x < n -> nth (rt x) (uf_parent u) 0 = rt x;
  g_id : forall x, x < n -> nth x (uf_parent u) 0 = x -> rt x = x;
  g_rank : forall x, x < n -> nth x (uf_parent u) 0 <> x ->
      nth x (uf_rank u) 0 < nth (nth x (uf_parent u) 0) (uf_rank u) 0;
  g_min : forall x, x < n -> nth (rt x) (uf_min u) 0 < n
      /\ rt (nth (rt x) (uf_min u) 0) = rt x
      /\ forall y, y < n -> rt y = rt x -> nth (rt x) (uf_min u) 0 <= y
}.

Lemma g_rr u rt x : good u rt -> x < n -> rt (rt x) = rt x.
Proof. intros G H. apply (g_id _ _ G); [now apply (g_r _ _ G)|]. now apply (g_pr _ _ G). Qed.

(** Nodes of larger rank: strictly fewer at the parent. *)
Definition above (rk : list nat) (x : nat) : nat :=
  length (filter (fun y => nth x rk 0 <? nth y rk 0) (seq 0 n)).

Lemma filter_le {A} (f g : A -> bool) l : (forall a, g a = true -> f a = true) ->
  length (filter g l) <= length (filter f l).
Proof.
  intros H. induction l as [|a l IH]; [reflexivity|]. cbn.
  destruct (g a) eqn:Eg; [rewrite (H _ Eg); cbn; lia|]. destruct (f a); cbn; lia.
Qed.

Lemma filter_lt {A} (f g : A -> bool) l x : (forall a, g a = true -> f a = true) ->
  In x l -> f x = true -> g x = false -> length (filter g l) < length (filter f l).
Proof.
  intros H Hin Hf Hg. induction l as [|a l IH]; [easy|]. cbn. destruct Hin as [->|Hin].
  - rewrite Hf, Hg. cbn. pose proof (filter_le f g l H). lia.
  - specialize (IH Hin). destruct (g a) eqn:Eg; [rewrite (H _ Eg); cbn; lia|].
    destruct (f a); cbn; lia.
Qed.

Lemma above_lt rk x y : y < n -> nth x rk 0 < nth y rk 0 -> above rk y < above rk x.
Proof.
  intros Hy H. apply (filter_lt _ _ _ y).
  - intros a. rewrite !Nat.ltb_lt. lia.
  - apply in_seq. lia.
  - now apply Nat.ltb_lt.
  - apply Nat.ltb_irrefl.
Qed.

Lemma above_bound rk x : x < n -> above rk x < n.
Proof.
  intros H. unfold above. rewrite <- (seq_length n 0) at 2.
  replace (length (seq 0 n)) with (length (filter (fun _ => true) (seq 0 n))).
  - apply (filter_lt _ _ _ x); [easy| |reflexivity|apply Nat.ltb_irrefl]. apply in_seq. lia.
  - generalize (seq 0 n). intros l. induction l as [|a l IH]; [reflexivity|]. cbn. now rewrite IH.
Qed.

Lemma nth_upd (l : list nat) i v j : i < length l ->
  nth j (upd l i v) 0 = if j =? i then v else nth j l 0.
Proof.
  intros H. destruct (Nat.eqb_spec j i) as [->|N].
  - apply nth_error_nth. now apply nth_error_upd_eq.
  - destruct (Nat.lt_ge_cases j (length l)) as [L|L].
    + apply nth_error_nth. rewrite nth_error_upd_ne by exact N. now apply nth_error_nth'.
    + rewrite !nth_overflow; [reflexivity|exact L|now rewrite upd_length].
Qed.

Lemma find_ok fuel : forall u rt x, good u rt -> x < n -> above (uf_rank u) x < fuel ->
  exists p', find fuel (uf_parent u) x = Some (p', rt x)
    /\ good (mkUf p' (uf_rank u) (uf_min u)) rt
    /\ nth x (uf_rank u) 0 <= nth (rt x) (uf_rank u) 0.
Proof.
  induction fuel as [|fuel IH]; intros u rt x G Hx Hf; [lia|]. cbn [find].
  rewrite (nth_error_nth' (uf_parent u) 0) by (rewrite (g_lp _ _ G); exact Hx). cbn [obind].
  set (px := nth x (uf_parent u) 0). destruct (Nat.eqb_spec px x) as [E|E]; cbn [negb].
  - exists (uf_parent u). pose proof (g_id _ _ G x Hx E) as R. rewrite E.
    split; [now rewrite R|]. split; [now destruct u|]. rewrite R. lia.
  - pose proof (g_p _ _ G x Hx) as Hpx. fold px in Hpx.
    pose proof (g_rank _ _ G x Hx E) as Hrk. fold px in Hrk.
    destruct (IH u rt px G Hpx) as [p' [Ef [G' Hle]]].
    { pose proof (above_lt (uf_rank u) x px Hpx Hrk). lia. }
    rewrite Ef. cbn [obind].
    assert (Lp' : length p' = n) by apply (g_lp _ _ G').
    pose proof (g_rp _ _ G x Hx) as Rpx. fold px in Rpx. rewrite Rpx in *.
    rewrite nth_error_upd_eq by lia. cbn [obind].
    exists (upd p' x (rt x)). split; [reflexivity|]. split; [|lia].
    assert (Nx : rt x <> x).
    { intros C. pose proof (g_pr _ _ G x Hx) as P. rewrite C in P. fold px in P. congruence. }
    destruct G' as [h1 h2 h3 h4 h5 h6 h7 h8 h9 h10]; cbn [uf_parent uf_rank uf_min] in *.
    assert (U : forall y, nth y (upd p' x (rt x)) 0 = if y =? x then rt x else nth y p' 0)
      by (intros y; apply nth_upd; lia).
    constructor; cbn [uf_parent uf_rank uf_min]; auto.
    + now rewrite upd_length.
    + intros y Hy. rewrite U. destruct (y =? x); auto.
    + intros y Hy. rewrite U. destruct (Nat.eqb_spec y x) as [->|]; auto.
    + intros y Hy. rewrite U. destruct (Nat.eqb_spec (rt y) x) as [C|]; auto.
      exfalso. pose proof (g_pr _ _ G y Hy) as P. rewrite C in P. fold px in P. congruence.
    + intros y Hy. rewrite U. destruct (Nat.eqb_spec y x) as [->|]; auto.
    + intros y Hy. rewrite U. destruct (Nat.eqb_spec y x) as [->|]; [|auto]. intros _. lia.
Qed.

Lemma uf_find_ok u rt x : good u rt -> x < n ->
  exists u', uf_find u x = Some (u', rt x) /\ good u' rt /\ uf_rank u' = uf_rank u /\ uf_min u' = uf_min u.
Proof.
  intros G Hx. unfold uf_find. rewrite (g_lp _ _ G).
  destruct (find_ok n u rt x G Hx (above_bound _ _ Hx)) as [p' [E [G' _]]].
  rewrite E. cbn [obind]. eexists. split; [reflexivity|]. auto.
Qed.

(** Linking root [a] under root [b]. *)
Definition link (rt : nat -> nat) (a b : nat) (x : nat) : nat := if rt x =? a then b else rt x.

Lemma link_good u rt a b rk m :
  good u rt -> a < n -> b < n -> rt a = a -> rt b = b -> a <> b ->
  length rk = n ->
  (forall x, x < n -> x <> b -> nth x rk 0 = nth x (uf_rank u) 0) ->
  nth b (uf_rank u) 0 <= nth b rk 0 -> nth a rk 0 < nth b rk 0 ->
  m = Nat.min (nth a (uf_min u) 0) (nth b (uf_min u) 0) ->
  good (mkUf (upd (uf_parent u) a b) rk (upd (uf_min u) b m)) (link rt a b).
Proof.
  intros G Ha Hb Ra Rb N Lk Kx Kb Kab ->.
  assert (U : forall y, nth y (upd (uf_parent u) a b) 0 = if y =? a then b else nth y (uf_parent u) 0)
    by (intros y; apply nth_upd; rewrite (g_lp _ _ G); exact Ha).
  set (m := Nat.min _ _).
  assert (M : forall y, nth y (upd (uf_min u) b m) 0 = if y =? b then m else nth y (uf_min u) 0)
    by (intros y; apply nth_upd; rewrite (g_lm _ _ G); exact Hb).
  pose proof (g_min _ _ G a Ha) as Ma. rewrite Ra in Ma. destruct Ma as [Ma1 [Ma2 Ma3]].
  pose proof (g_min _ _ G b Hb) as Mb. rewrite Rb in Mb. destruct Mb as [Mb1 [Mb2 Mb3]].
  pose proof (g_pr _ _ G b Hb) as Pb. rewrite Rb in Pb.
  pose proof (g_pr _ _ G a Ha) as Pa. rewrite Ra in Pa.
  constructor; cbn [uf_parent uf_rank uf_min].
  - rewrite upd_length. apply (g_lp _ _ G).
  - exact Lk.
  - rewrite upd_length. apply (g_lm _ _ G).
  - intros x Hx. rewrite U. destruct (x =? a); [exact Hb|now apply (g_p _ _ G)].
  - intros x Hx. unfold link. destruct (rt x =? a); [exact Hb|now apply (g_r _ _ G)].
  - intros x Hx. rewrite U. unfold link. destruct (Nat.eqb_spec x a) as [->|Nx].
    + rewrite Rb, Ra, Nat.eqb_refl. destruct (Nat.eqb_spec b a); congruence.
    + now rewrite (g_rp _ _ G x Hx).
  - intros x Hx. unfold link. destruct (Nat.eqb_spec (rt x) a) as [E|E].
    + rewrite U. destruct (Nat.eqb_spec b a); [congruence|exact Pb].
    + rewrite U. destruct (Nat.eqb_spec (rt x) a); [congruence|now apply (g_pr _ _ G)].
  - intros x Hx. rewrite U. unfold link. destruct (Nat.eqb_spec x a) as [->|Nx].
    + intros E. congruence.
    + intros E. rewrite (g_id _ _ G x Hx E). destruct (Nat.eqb_spec x a); congruence.
  - intros x Hx. rewrite U. destruct (Nat.eqb_spec x a) as [->|Nx].
    + intros _. exact Kab.
    + intros E. pose proof (g_rank _ _ G x Hx E) as R. pose proof (g_p _ _ G x Hx) as Px.
      destruct (Nat.eq_dec x b) as [->|Nb]; [congruence|].
      rewrite (Kx x Hx Nb). destruct (Nat.eq_dec (nth x (uf_parent u) 0) b) as [Eb|Eb].
      * rewrite Eb in *. lia.
      * rewrite (Kx _ Px Eb). exact R.
  - assert (Mm : m < n /\ (rt m = a \/ rt m = b)).
    { unfold m. destruct (Nat.min_spec (nth a (uf_min u) 0) (nth b (uf_min u) 0)) as [[_ ->]|[_ ->]]; auto. }
    assert (Lb : link rt a b m = b).
    { unfold link. destruct (Nat.eqb_spec (rt m) a); [reflexivity|]. destruct Mm as [_ [C|C]]; congruence. }
    intros x Hx. assert (Lx : link rt a b x = if rt x =? a then b else rt x) by reflexivity.
    assert (Cmp : forall y, y < n -> link rt a b y = b -> m <= y).
    { intros y Hy. unfold link. destruct (Nat.eqb_spec (rt y) a) as [Ey|Ey].
      - intros _. specialize (Ma3 y Hy Ey). unfold m. lia.
      - intros Ey2. specialize (Mb3 y Hy Ey2). unfold m. lia. }
    destruct (Nat.eqb_spec (rt x) a) as [E|E]; rewrite Lx.
    + rewrite M, Nat.eqb_refl. split; [apply Mm|]. split; [exact Lb|exact Cmp].
    + rewrite M. destruct (Nat.eqb_spec (rt x) b) as [Eb|Eb].
      * rewrite Eb. split; [apply Mm|]. split; [exact Lb|exact Cmp].
      * destruct (g_min _ _ G x Hx) as [X1 [X2 X3]]. split; [exact X1|]. split.
        -- unfold link. rewrite X2. destruct (Nat.eqb_spec (rt x) a); congruence.
        -- intros y Hy. unfold link. destruct (Nat.eqb_spec (rt y) a) as [Ey|Ey].
           ++ intros C. congruence.
           ++ intros Ey2. now apply X3.
Qed.

Lemma union_ok u rt x y : good u rt -> x < n -> y < n ->
  exists u' rt', union u x y = Some u' /\ good u' rt'
    /\ forall v w, v < n -> w < n ->
        (rt' v = rt' w <-> rt v = rt w \/ (rt v = rt x /\ rt w = rt y) \/ (rt v = rt y /\ rt w = rt x)).
Proof.
  intros G Hx Hy. unfold union.
  destruct (uf_find_ok u rt x G Hx) as [u1 [E1 [G1 _]]]. rewrite E1. cbn [obind].
  destruct (uf_find_ok u1 rt y G1 Hy) as [u2 [E2 [G2 _]]]. rewrite E2. cbn [obind].
  clear G E1 E2 G1 u u1.
  pose proof (g_r _ _ G2 x Hx) as Hrx. pose proof (g_r _ _ G2 y Hy) as Hry.
  pose proof (g_rr _ _ x G2 Hx) as Rx. pose proof (g_rr _ _ y G2 Hy) as Ry.
  destruct (Nat.eqb_spec (rt x) (rt y)) as [E|E]; cbn [negb].
  - exists u2, rt. split; [reflexivity|]. split; [exact G2|]. intros v w _ _. rewrite E.
    split; [auto|]. intros [H|[[H1 H2]|[H1 H2]]]; congruence.
  - rewrite !(nth_error_nth' (uf_min u2) 0) by (rewrite (g_lm _ _ G2); assumption).
    rewrite !(nth_error_nth' (uf_rank u2) 0) by (rewrite (g_lr _ _ G2); assumption). cbn [obind].
    destruct (Nat.compare_spec (nth (rt x) (uf_rank u2) 0) (nth (rt y) (uf_rank u2) 0)) as [C|C|C].
    + eexists _, (link rt (rt y) (rt x)). split; [reflexivity|]. split.
      * apply link_good; auto.
        -- rewrite upd_length. apply (g_lr _ _ G2).
        -- intros z Hz Nz. rewrite nth_upd by (rewrite (g_lr _ _ G2); exact Hrx).
           destruct (Nat.eqb_spec z (rt x)); congruence.
        -- rewrite nth_upd by (rewrite (g_lr _ _ G2); exact Hrx). rewrite Nat.eqb_refl. lia.
        -- rewrite !nth_upd by (rewrite (g_lr _ _ G2); exact Hrx). rewrite Nat.eqb_refl.
           destruct (Nat.eqb_spec (rt y) (rt x)); [congruence|]. lia.
        -- apply Nat.min_comm.
      * intros v w _ _. unfold link.
        destruct (Nat.eqb_spec (rt v) (rt y)), (Nat.eqb_spec (rt w) (rt y)); intuition congruence.
    + eexists _, (link rt (rt x) (rt y)). split; [reflexivity|]. split.
      * apply link_good; auto. apply (g_lr _ _ G2).
      * intros v w _ _. unfold link.
        destruct (Nat.eqb_spec (rt v) (rt x)), (Nat.eqb_spec (rt w) (rt x)); intuition congruence.
    + eexists _, (link rt (rt y) (rt x)). split; [reflexivity|]. split.
      * apply link_good; auto. { apply (g_lr _ _ G2). } apply Nat.min_comm.
      * intros v w _ _. unfold link.
        destruct (Nat.eqb_spec (rt v) (rt y)), (Nat.eqb_spec (rt w) (rt y)); intuition congruence.
Qed.

(** ** Adding the sets *)
Lemma list_min_spec t : forall x, In (list_min x t) (x :: t).
Proof.
  induction t as [|y t IH]; intros x; [now left|]. cbn [list_min].
  destruct (IH (Nat.min x y)) as [H|H].
  - rewrite <- H. destruct (Nat.min_spec x y) as [[_ E]|[_ E]]; rewrite E; cbn; auto.
  - right. now right.
Qed.

(** The partition of [rt'] is the one of [rt] with the set merged into one class: sound and complete
    with respect to any equivalence containing both. *)
Definition merges (rt rt' : nat -> nat) (ids : list nat) : Prop :=
  (forall v w, v < n -> w < n -> rt v = rt w -> rt' v = rt' w)
  /\ (forall v w, In v ids -> In w ids -> rt' v = rt' w)
  /\ (forall R : nat -> nat -> Prop, equivalence nat R ->
        (forall v w, v < n -> w < n -> rt v = rt w -> R v w) ->
        (forall v w, In v ids -> In w ids -> R v w) ->
        forall v w, v < n -> w < n -> rt' v = rt' w -> R v w).

Lemma union_all_ok base ids : base < n -> (forall x, In x ids -> x < n) ->
  forall u rt, good u rt ->
  exists u' rt', ofold (fun u node => if negb (node =? base) then union u base node else Some u) ids u = Some u'
    /\ good u' rt'
    /\ (forall v w, v < n -> w < n -> rt v = rt w -> rt' v = rt' w)
    /\ (forall v, In v ids -> rt' v = rt' base)
    /\ (forall R : nat -> nat -> Prop, equivalence nat R ->
        (forall v w, v < n -> w < n -> rt v = rt w -> R v w) ->
        (forall v, In v ids -> R base v) ->
        forall v w, v < n -> w < n -> rt' v = rt' w -> R v w).
Proof.
  intros Hb. induction ids as [|x ids IH]; intros Hids u rt G.
  - exists u, rt. split; [reflexivity|]. split; [exact G|]. split; [auto|]. split; [easy|]. auto.
  - assert (Hx : x < n) by (apply Hids; now left).
    assert (Hids' : forall x, In x ids -> x < n) by (intros; apply Hids; now right).
    cbn [ofold]. destruct (Nat.eqb_spec x base) as [->|N]; cbn [negb].
    + destruct (IH Hids' u rt G) as [u' [rt' [E [G' [A [B C]]]]]].
      exists u', rt'. split; [exact E|]. split; [exact G'|]. split; [exact A|]. split.
      * intros v [<-|H]; auto.
      * intros R ER H1 H2. apply C; auto. intros v Hv. apply H2. now right.
    + destruct (union_ok u rt base x G Hb Hx) as [u1 [rt1 [E1 [G1 K]]]]. rewrite E1.
      destruct (IH Hids' u1 rt1 G1) as [u' [rt' [E [G' [A [B C]]]]]].
      exists u', rt'. split; [exact E|]. split; [exact G'|]. split; [|split].
      * intros v w Hv Hw H. apply A; auto. apply K; auto.
      * intros v [<-|H]; [|auto]. apply A; auto. apply K; auto.
      * intros R ER H1 H2. apply C; auto.
        -- intros v w Hv Hw Hvw. apply K in Hvw; auto. destruct ER as [r t s].
           pose proof (H2 x (or_introl eq_refl)) as Rbx.
           destruct Hvw as [H|[[H3 H4]|[H3 H4]]]; [now apply H1| |].
           ++ apply (t _ base); [now apply H1|]. apply (t _ x); [exact Rbx|]. apply s. now apply H1.
           ++ apply (t _ x); [now apply H1|]. apply (t _ base); [now apply s|]. apply s. now apply H1.
        -- intros v Hv. apply H2. now right.
Qed.

Lemma add_set_ok u rt ids : good u rt -> (forall x, In x ids -> x < n) ->
  exists u' rt', add_set u ids = Some u' /\ good u' rt' /\ merges rt rt' ids.
Proof.
  intros G Hids. unfold add_set. destruct ids as [|x [|y t]].
  - exists u, rt. split; [reflexivity|]. split; [exact G|]. split; [auto|]. split; [easy|]. auto.
  - exists u, rt. split; [reflexivity|]. split; [exact G|]. split; [auto|]. split.
    + intros v w [<-|[]] [<-|[]]. reflexivity.
    + auto.
  - cbv zeta. set (base := list_min x (y :: t)). set (ids := x :: y :: t) in *.
    assert (Bin : In base ids) by apply list_min_spec.
    destruct (union_all_ok base ids (Hids _ Bin) Hids u rt G) as [u' [rt' [E [G' [A [B C]]]]]].
    exists u', rt'. split; [exact E|]. split; [exact G'|]. split; [exact A|]. split.
    + intros v w Hv Hw. rewrite (B v Hv), (B w Hw). reflexivity.
    + intros R ER H1 H2. apply C; auto.
Qed.

Lemma add_sets_ok data : (forall ids x, In ids data -> In x ids -> x < n) ->
  forall u rt, good u rt ->
  exists u' rt', ofold add_set data u = Some u' /\ good u' rt'
    /\ (forall v w, v < n -> w < n -> rt v = rt w -> rt' v = rt' w)
    /\ (forall v w, adjacent data v w -> rt' v = rt' w)
    /\ (forall R : nat -> nat -> Prop, equivalence nat R ->
        (forall v w, v < n -> w < n -> rt v = rt w -> R v w) ->
        (forall v w, adjacent data v w -> R v w) ->
        forall v w, v < n -> w < n -> rt' v = rt' w -> R v w).
Proof.
  induction data as [|ids data IH]; intros Hd u rt G.
  - exists u, rt. split; [reflexivity|]. split; [exact G|]. split; [auto|]. split; [|auto].
    intros v w [ids [[] _]].
  - cbn [ofold].
    destruct (add_set_ok u rt ids G) as [u1 [rt1 [E1 [G1 [A1 [B1 C1]]]]]].
    { intros x Hx. apply (Hd ids); [now left|exact Hx]. }
    rewrite E1.
    destruct (IH (fun i x Hi Hx => Hd i x (or_intror Hi) Hx) u1 rt1 G1) as [u' [rt' [E [G' [A [B C]]]]]].
    exists u', rt'. split; [exact E|]. split; [exact G'|]. split; [|split].
    + auto.
    + intros v w [i [[->|Hi] [Hv Hw]]].
      * apply A; [apply (Hd i); [now left|exact Hv]|apply (Hd i); [now left|exact Hw]|]. now apply B1.
      * apply B. exists i. auto.
    + intros R ER H1 H2. apply C; auto.
      * apply C1; auto. intros v w Hv Hw. apply H2. exists ids. split; [now left|auto].
      * intros v w [i [Hi Hvw]]. apply H2. exists i. split; [now right|exact Hvw].
Qed.

Lemma new_good : good (uf_new n) (fun x => x).
Proof.
  constructor; cbn [uf_new uf_parent uf_rank uf_min]; rewrite ?seq_length, ?repeat_length; auto;
    intros x Hx; rewrite ?seq_nth by exact Hx; cbn; auto; try lia.
  split; [exact Hx|]. split; [reflexivity|]. intros y _ ->. lia.
Qed.

Lemma labels_ok rt is : (forall i, In i is -> i < n) -> forall u, good u rt ->
  exists l, labels u is = Some l /\ length l = length is
    /\ forall k i, nth_error is k = Some i -> nth_error l k = Some (nth (rt i) (uf_min u) 0).
Proof.
  induction is as [|i is IH]; intros H u G.
  - exists []. split; [reflexivity|]. split; [reflexivity|]. intros [|k]; discriminate.
  - assert (Hi : i < n) by (apply H; now left). cbn [labels].
    destruct (uf_find_ok u rt i G Hi) as [u' [E [G' [_ Em]]]]. rewrite E. cbn [obind].
    rewrite (nth_error_nth' (uf_min u') 0)
      by (rewrite (g_lm _ _ G'); now apply (g_r _ _ G')). cbn [obind].
    destruct (IH (fun j Hj => H j (or_intror Hj)) u' G') as [l [El [Ll Il]]]. rewrite El. cbn [obind].
    eexists. split; [reflexivity|]. split; [cbn; lia|]. intros [|k] j Hk; cbn in *.
    + injection Hk as <-. now rewrite Em.
    + rewrite (Il k j Hk). now rewrite Em.
Qed.
End Inv.

Lemma list_max0_le l x : In x l -> x <= list_max0 l.
Proof. induction l as [|y l IH]; [easy|]. cbn. intros [->|H]; [lia|]. apply IH in H. unfold list_max0 in H. lia. Qed.

Lemma list_max0_in l : l <> [] -> In (list_max0 l) l.
Proof.
  induction l as [|y l IH]; [easy|]. intros _. cbn [list_max0 fold_right].
  destruct l as [|z l]; [left; cbn; lia|].
  destruct (Nat.max_spec y (list_max0 (z :: l))) as [[_ E]|[_ E]]; unfold list_max0 in *; rewrite E.
  - right. apply IH. discriminate.
  - now left.
Qed.

(** For every family of node sets the labelling succeeds (the recursion terminates and no index is
    out of range); it labels the nodes 0 up to the largest node mentioned, and the label of a node is
    connected to it and is the smallest such node. *)
Theorem connected_components_correct (data : list (list nat)) :
  exists labels, connected_components data = Some labels
    /\ (data = [] -> labels = [])
    /\ (data <> [] ->
        length labels = S (list_max0 (concat data))
        /\ forall i, i < length labels -> exists m, nth_error labels i = Some m
             /\ connected data i m /\ forall j, connected data i j -> m <= j).
Proof.
  unfold connected_components. destruct data as [|d0 data'].
  { exists []. split; [reflexivity|]. split; [auto|]. now intros []. }
  set (data := d0 :: data'). set (n := list_max0 (concat data) + 1).
  assert (Hd : forall ids x, In ids data -> In x ids -> x < n).
  { intros ids x Hi Hx. unfold n. assert (x <= list_max0 (concat data)); [|lia].
    apply list_max0_le. apply in_concat. eauto. }
  cbv zeta. fold n.
  destruct (add_sets_ok n data Hd (uf_new n) (fun x => x) (new_good n)) as [u [rt [E [G [_ [B C]]]]]].
  rewrite E. cbn [obind].
  destruct (labels_ok n rt (seq 0 n)) with (u := u) as [l [El [Ll Il]]]; [|exact G|].
  { intros i Hi. apply in_seq in Hi. lia. }
  rewrite seq_length in Ll. exists l. split; [exact El|]. split; [discriminate|]. intros _.
  split; [unfold n in Ll; lia|]. intros i Hi. rewrite Ll in Hi.
  (* rt identifies exactly the connected nodes *)
  assert (K1 : forall v w, v < n -> w < n -> rt v = rt w -> connected data v w).
  { apply (C (connected data)).
    - split.
      + intros x. apply rst_refl.
      + intros x y z. apply rst_trans.
      + intros x y. apply rst_sym.
    - intros v w _ _ ->. apply rst_refl.
    - intros v w H. now apply rst_step. }
  assert (K2 : forall v w, connected data v w -> v = w \/ (v < n /\ w < n /\ rt v = rt w)).
  { intros v w H. induction H as [v w H|v|v w _ IH|v w z _ IH1 _ IH2].
    - right. destruct H as [ids [H1 [H2 H3]]]. split; [eapply Hd; eauto|]. split; [eapply Hd; eauto|].
      apply B. exists ids. auto.
    - now left.
    - destruct IH as [->|[H1 [H2 H3]]]; auto.
    - destruct IH1 as [->|[H1 [H2 H3]]]; [exact IH2|]. destruct IH2 as [<-|[H4 [H5 H6]]]; auto.
      right. split; [exact H1|]. split; [exact H5|]. congruence. }
  destruct (g_min _ _ _ G i Hi) as [M1 [M2 M3]].
  exists (nth (rt i) (uf_min u) 0). split.
  { apply Il. rewrite nth_error_seq. rewrite (proj2 (Nat.ltb_lt _ _) Hi). reflexivity. }
  split; [apply K1; auto|].
  intros j Hj. apply K2 in Hj. destruct Hj as [<-|[_ [Hj1 Hj2]]]; auto.
Qed.

(** The examples of the documentation. *)
Fact components_ex :
  connected_components [[0; 1]; [1; 2]; [2; 3]; [4]] = Some [0; 0; 0; 0; 4]
  /\ connected_components [[0; 1; 2]; [5; 6; 7; 8]; [9]; [2; 3; 9]] = Some [0; 0; 0; 0; 4; 5; 5; 5; 5; 0]
  /\ connected_components [[]] = Some [0].
Proof. repeat split. Qed.
