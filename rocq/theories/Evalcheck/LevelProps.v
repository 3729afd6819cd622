(** C82: the tower level recorded for an oracle is that of a subfield containing its values. *)
Require Import Coq.NArith.NArith Coq.Arith.Arith Coq.Lists.List Coq.Bool.Bool Lia.
From Verif Require Import Base.Fld Base.Lists Base.Sums Math.MleSpec Math.MleModel Math.ArithModel Math.ArithProofs Math.ArithProps
  Field.TowerModel Field.TowerProofs Field.TowerProps Field.Examples Transparent.TransparentModel Transparent.TransparentProps Transparent.TowerBasisProps
  Transparent.ShiftModel Sumcheck.ZerocheckModel Evalcheck.OracleModel Evalcheck.EvalModel Evalcheck.EvalSpec Evalcheck.EvalProofs Evalcheck.SymbolicModel Evalcheck.SymbolicProps.
Import ListNotations.
Local Close Scope N_scope.
Local Open Scope nat_scope.

(** * Specification *)
Section Spec.
  Variable L : nat.
  Notation F := (TF L).

  (** The element is in the subfield of [2 ^ 2 ^ l] elements: its higher bits are zero. *)
  Definition in_level (l : nat) (x : F) : Prop := (enc L x < 2 ^ 2 ^ N.of_nat l)%N.

  (** Sets of oracles made with the methods of the builder. *)
  Inductive built : sset L -> Prop :=
  | B_empty : built []
  | B_transparent ss t lv p level r : built ss -> sym_transparent L ss t lv p level = Ok r -> built (fst r)
  | B_structured ss t lv c r : built ss -> sym_structured L ss t lv c = Ok r -> built (fst r)
  | B_committed ss t lv level : built ss -> built (fst (sym_committed L ss t lv level))
  | B_repeating ss t lv i r : built ss -> sym_repeating L ss t lv i = Ok r -> built (fst r)
  | B_shifted ss t lv i o b sv r : built ss -> sym_shifted L ss t lv i o b sv = Ok r -> built (fst r)
  | B_packed ss t lv i d r : built ss -> sym_packed L ss t lv i d = Ok r -> built (fst r)
  | B_projected ss t lv i vs start r : built ss -> sym_projected L ss t lv i vs start = Ok r -> built (fst r)
  | B_linear ss t lv off inner r : built ss -> sym_linear_combination L ss t lv off inner = Ok r -> built (fst r)
  | B_composite ss t lv ids c r : built ss -> sym_composite L ss t lv ids c = Ok r -> built (fst r)
  | B_padded ss t lv i pad nz s r : built ss -> sym_zero_padded L ss t lv i pad nz s = Ok r -> built (fst r).

  (** The values that the builder takes on trust: committed and transparent columns. *)
  Definition leaves_in (ss : sset L) (sizes : list nat) (V : values L) : Prop :=
    forall i o x, nth_error ss i = Some o -> (so_variant o = SymCommitted \/ exists p, so_variant o = SymTransparent p) ->
      rows L sizes o <> 0 -> x < 2 ^ vars L sizes o -> in_level (so_level o) (V i x).
  (** The constants of the compositions and the points of the projections, which the code does not look at, are in the level of the columns. *)
  Definition constants_in (ss : sset L) : Prop :=
    forall i o, nth_error ss i = Some o -> match so_variant o with
      | SymProjected _ vs _ => forall v, In v vs -> in_level (so_level o) v
      | SymComposite _ c => forall v, In (SConst v) c -> in_level (so_level o) v
      | _ => True end.
End Spec.

(** * Proofs *)
Section Props.
  Variable L : nat.
  Notation F := (TF L).
  Local Open Scope fld_scope.
  Notation inl := (in_level L).
  Add Ring Fring : (f_ring F).

  Lemma in_inr l x : inl l x <-> inr l (enc L x). Proof. reflexivity. Qed.
  Lemma in_top l x : (L <= l)%nat -> inl l x.
  Proof. intros H. apply in_inr. apply (inr_le L l _ H). apply enc_inr. Qed.
  Lemma in_mono l m x : (l <= m)%nat -> inl l x -> inl m x.
  Proof. intros H. rewrite !in_inr. now apply inr_le. Qed.
  Lemma in_dec l a : inr L a -> inr l a -> inl l (dec L a).
  Proof. intros HL Hl. apply in_inr. now rewrite enc_dec. Qed.
  Lemma in_0 l : inl l 0. Proof. rewrite <- (dec_0 L). apply in_dec; apply inr_0. Qed.
  Lemma in_1 l : inl l 1. Proof. rewrite <- (dec_1 L). apply in_dec; apply inr_1. Qed.
  Lemma in_add l x y : inl l x -> inl l y -> inl l (x + y).
  Proof. rewrite !in_inr. intros Hx Hy. rewrite <- (dec_enc L x), <- (dec_enc L y), <- dec_add, enc_dec by (apply tadd_inr; apply enc_inr). now apply tadd_inr. Qed.
  Lemma in_mul l x y : inl l x -> inl l y -> inl l (x * y).
  Proof.
    destruct (Nat.le_gt_cases L l) as [H|H]; [intros _ _; now apply in_top|]. rewrite !in_inr. intros Hx Hy.
    rewrite <- (dec_enc L x), <- (dec_enc L y), <- dec_mul, enc_dec by (try apply tmul_inr; apply enc_inr). rewrite (tmul_small l L) by (auto; lia). now apply tmul_inr.
  Qed.
  Lemma in_compl l x : inl l x -> inl l (1 - x).
  Proof. intros H. replace (1 - x) with (1 + x); [apply in_add; [apply in_1|exact H]|]. assert (C := TF_char2 L). unfold char2 in C. replace (1 + x) with (1 - x + (f1 + f1) * x) by ring. rewrite C. ring. Qed.
  Lemma in_sum l n f : (forall i, (i < n)%nat -> inl l (f i)) -> inl l (sumn (F := F) n f).
  Proof. induction n as [|n IH]; intros H; [rewrite sumn_0; apply in_0|]. rewrite sumn_S. apply in_add; [apply IH; intros; apply H; lia|apply H; lia]. Qed.
  Lemma in_prod l n f : (forall i, (i < n)%nat -> inl l (f i)) -> inl l (prodn (F := F) n f).
  Proof. induction n as [|n IH]; intros H; [rewrite prodn_0; apply in_1|]. rewrite prodn_S. apply in_mul; [apply IH; intros; apply H; lia|apply H; lia]. Qed.
  Lemma in_eqw l r : forall x, (forall v, In v r -> inl l v) -> inl l (eqw r x).
  Proof.
    induction r as [|v r IH]; intros x H; cbn [eqw]; [apply in_1|]. apply in_mul; [|apply IH; intros; apply H; now right].
    destruct (Nat.odd x); [|apply in_compl]; apply H; now left.
  Qed.
  Lemma in_mle l f r : (forall v, In v r -> inl l v) -> (forall x, (x < 2 ^ length r)%nat -> inl l (f x)) -> inl l (mle f r).
  Proof. intros Hr Hf. unfold mle. apply in_sum. intros x Hx. apply in_mul; [now apply Hf|now apply in_eqw]. Qed.
  Lemma in_vertex l n : forall x v, In v (vertex n x) -> inl l v.
  Proof. induction n as [|n IH]; intros x v; cbn [vertex]; [intros []|]. intros [<-|H]; [destruct (Nat.odd x); [apply in_1|apply in_0]|now apply (IH (x / 2)%nat)]. Qed.
  Lemma in_pow l x e : inl l x -> inl l (ppow x e).
  Proof.
    intros H. unfold ppow. assert (G : forall (is : list nat) (a : F), inl l a -> inl l (fold_left (fun res i => let res := res * res in if N.testbit e (N.of_nat i) then res * x else res) is a)).
    { induction is as [|i is IH]; intros a Ha; cbn [fold_left]; [exact Ha|]. apply IH. cbv zeta. destruct (N.testbit _ _); repeat apply in_mul; auto. }
    apply G. apply in_1.
  Qed.
  Lemma some_eq {A} (a b : A) : Some a = Some b -> a = b. Proof. congruence. Qed.
  Lemma in_evals l q : forall c vs, (forall v, In v q -> inl l v) -> (forall v, In (SConst v) c -> inl l v) -> evals q c = Some vs -> forall v, In v vs -> inl l v.
  Proof.
    induction c as [|s c IH] using rev_ind; intros vs Hq Hc E.
    - unfold evals in E. cbn in E. injection E as <-. intros v [].
    - apply evals_valid in E. apply valid_init in E. destruct E as (vs' & v & -> & V & S). apply evals_valid in V.
      assert (IV : forall v, In v vs' -> inl l v) by (apply IH; [exact Hq|intros w Hw; apply Hc; apply in_or_app; now left|exact V]).
      assert (N1 : forall i a, nth_error vs' i = Some a -> inl l a) by (intros i a H; apply IV; eapply nth_error_In; eauto).
      intros w Hw. apply in_app_or in Hw. destruct Hw as [Hw|[<-|[]]]; [now apply IV|]. destruct s as [i j|i j|i e|a|i]; cbn [step_val] in S.
      + destruct (nth_error vs' i) as [a|] eqn:E1; [|discriminate]. destruct (nth_error vs' j) as [b|] eqn:E2; [|discriminate]. apply some_eq in S; subst. apply in_add; eauto.
      + destruct (nth_error vs' i) as [a|] eqn:E1; [|discriminate]. destruct (nth_error vs' j) as [b|] eqn:E2; [|discriminate]. apply some_eq in S; subst. apply in_mul; eauto.
      + destruct (nth_error vs' i) as [a|] eqn:E1; [|discriminate]. apply some_eq in S; subst. apply in_pow. eauto.
      + apply some_eq in S; subst. apply Hc. apply in_or_app. right. now left.
      + apply Hq. eapply nth_error_In; eauto.
  Qed.
  Lemma in_evaluate l c q v : (forall v, In v q -> inl l v) -> (forall v, In (SConst v) c -> inl l v) -> evaluate c q = Some v -> inl l v.
  Proof.
    intros Hq Hc E. unfold evaluate in E. destruct (evals q c) as [vs|] eqn:EV; [|discriminate]. apply some_eq in E; subst v. pose proof (in_evals l q c vs Hq Hc EV) as G.
    destruct vs as [|a vs]; [apply in_0|]. apply G. destruct (exists_last (l := a :: vs)) as (vs' & w & ->); [discriminate|]. rewrite last_last. apply in_or_app. right. now left.
  Qed.
  Lemma in_min l x : (min_level x <= l)%nat -> inl l x.
  Proof. intros H. apply (in_mono _ _ _ H). unfold min_level. apply in_inr. apply tower_min_level. apply enc_inr. Qed.
  Lemma in_basis iota d k : (k < 2 ^ d)%nat -> inl (iota + d) (basis_product L iota k).
  Proof.
    intros Hk. unfold basis_product. apply in_prod. intros j Hj. destruct (Nat.testbit k j) eqn:EB; [|apply in_1].
    assert (LT : (j < d)%nat).
    { destruct (Nat.lt_ge_cases j d) as [LT|GE]; [exact LT|]. exfalso. rewrite Nat.testbit_eqb in EB. rewrite Nat.div_small in EB by (eapply Nat.lt_le_trans; [exact Hk|apply Nat.pow_le_mono_r; lia]). discriminate. }
    assert (I : forall m, (iota + j < m)%nat -> inr m (2 ^ 2 ^ N.of_nat (iota + j))) by (intros m Hm; unfold inr; apply N.pow_lt_mono_r; [lia|]; apply N.pow_lt_mono_r; lia).
    unfold generator. apply in_dec; apply I; lia.
  Qed.
End Props.

Section Levels.
  Variable L : nat.
  Notation F := (TF L).
  Notation inl := (in_level L).

  Definition below (ss : sset L) (j l : nat) : Prop := exists o, nth_error ss j = Some o /\ so_level o <= l.
  (** what the methods of the builder make of the levels *)
  Definition level_rule (ss : sset L) (o : soracle L) : Prop :=
    match so_variant o with
    | SymCommitted | SymTransparent _ => True
    | SymStructured c => circuit_level c <= so_level o
    | SymRepeating j | SymProjected j _ _ | SymShifted j _ _ _ | SymZeroPadded j _ _ _ => below ss j (so_level o)
    | SymPacked j d => exists o', nth_error ss j = Some o' /\ so_level o = so_level o' + d
    | SymLinearCombination off inner => min_level off <= so_level o /\ forall j c, In (j, c) inner -> min_level c <= so_level o /\ below ss j (so_level o)
    | SymComposite ids _ => forall j, In j ids -> below ss j (so_level o)
    end.
  Lemma below_grow ss a j l : below ss j l -> below (ss ++ [a]) j l.
  Proof. intros (o & E & H). exists o. split; [|exact H]. rewrite nth_error_app1; [exact E|]. apply nth_error_Some. congruence. Qed.
  Lemma rule_grow ss a o : level_rule ss o -> level_rule (ss ++ [a]) o.
  Proof.
    unfold level_rule. destruct (so_variant o); auto using below_grow.
    - intros (o' & E & H). exists o'. split; [|exact H]. rewrite nth_error_app1; [exact E|]. apply nth_error_Some. congruence.
    - intros [H1 H2]. split; [exact H1|]. intros j c HI. destruct (H2 j c HI). auto using below_grow.
  Qed.
  Lemma sget_below ss j o : sget L ss j = Ok o -> below ss j (so_level o).
  Proof. unfold sget, of_opt. destruct (nth_error ss j) as [o'|] eqn:E; [|discriminate]. intros H. injection H as <-. exists o'. auto. Qed.
  Lemma rmap_max {A} (f : A -> res nat) : forall l r, rmap f l = Ok r -> forall a, In a l -> exists n, f a = Ok n /\ n <= fold_right Nat.max 0 r.
  Proof.
    induction l as [|x l IH]; intros r H a HI; [destruct HI|]. cbn [rmap] in H. destruct (f x) as [y| |] eqn:E; cbn [rbind] in H; try discriminate.
    destruct (rmap f l) as [ys| |] eqn:E'; cbn [rbind] in H; try discriminate. injection H as <-. cbn [fold_right]. destruct HI as [<-|HI]; [exists y; split; [exact E|lia]|].
    destruct (IH ys eq_refl a HI) as (n & En & Hn). exists n. split; [exact En|lia].
  Qed.
  Lemma below_mono ss j l m : l <= m -> below ss j l -> below ss j m.
  Proof. intros H (o & E & H'). exists o. split; [exact E|lia]. Qed.

  Lemma built_rules ss : built L ss -> forall i o, nth_error ss i = Some o -> level_rule ss o.
  Proof.
    assert (ADD : forall ss a, (forall i o, nth_error ss i = Some o -> level_rule ss o) -> level_rule ss a -> forall i o, nth_error (ss ++ [a]) i = Some o -> level_rule (ss ++ [a]) o).
    { intros ss0 a IH Ha i o E. apply rule_grow. destruct (Nat.lt_ge_cases i (length ss0)) as [LT|GE]; [rewrite nth_error_app1 in E by exact LT; eauto|].
      rewrite nth_error_app2 in E by exact GE. destruct (i - length ss0) as [|k]; [injection E as <-; exact Ha|destruct k; discriminate]. }
    assert (GET : forall ss j (k : soracle L -> res (sset L * nat)) r, (try o <- sget L ss j; k o) = Ok r -> exists o, nth_error ss j = Some o /\ sget L ss j = Ok o /\ k o = Ok r).
    { intros ss0 j k r H. unfold sget, of_opt in *. destruct (nth_error ss0 j) as [o|]; [|discriminate]. exists o. auto. }
    induction 1 as [|ss t lv p level r B IH E|ss t lv c r B IH E|ss t lv level B IH|ss t lv j r B IH E|ss t lv j o b sv r B IH E|ss t lv j d r B IH E|ss t lv j vs start r B IH E|ss t lv off inner r B IH E|ss t lv ids c r B IH E|ss t lv j pad nz s r B IH E].
    - intros [|i] o E; discriminate E.
    - unfold sym_transparent in E. destruct (L <? level); [discriminate|]. injection E as <-. apply ADD; [exact IH|exact I].
    - unfold sym_structured in E. destruct (L <? circuit_level c); [discriminate|]. injection E as <-. apply ADD; [exact IH|]. cbn. lia.
    - apply ADD; [exact IH|exact I].
    - unfold sym_repeating in E. apply GET in E. destruct E as (o & _ & EG & E). injection E as <-. apply ADD; [exact IH|]. cbn. now apply sget_below.
    - unfold sym_shifted in E. destruct (_ || _); [discriminate|]. apply GET in E. destruct E as (o' & _ & EG & E). injection E as <-. apply ADD; [exact IH|]. cbn. now apply sget_below.
    - unfold sym_packed in E. apply GET in E. destruct E as (o' & EN & EG & E). injection E as <-. apply ADD; [exact IH|]. cbn. eauto.
    - unfold sym_projected in E. apply GET in E. destruct E as (o' & _ & EG & E). injection E as <-. apply ADD; [exact IH|]. cbn. now apply sget_below.
    - unfold sym_linear_combination in E. match type of E with (try _ <- ?X; _) = _ => destruct X as [lvs| |] eqn:ER end; cbn [rbind] in E; try discriminate. injection E as <-. apply ADD; [exact IH|].
      cbn [level_rule so_variant so_level]. split; [lia|]. intros j c HI. destruct (rmap_max _ _ _ ER (j, c) HI) as (n & En & Hn). cbn [fst snd] in En.
      destruct (sget L ss j) as [o| |] eqn:EG; cbn [rbind] in En; try discriminate. injection En as <-. split; [lia|]. apply (below_mono _ _ (so_level o)); [lia|]. now apply sget_below.
    - unfold sym_composite in E. match type of E with (try _ <- ?X; _) = _ => destruct X as [lvs| |] eqn:ER end; cbn [rbind] in E; try discriminate. injection E as <-. apply ADD; [exact IH|].
      cbn [level_rule so_variant so_level]. intros j HI. destruct (rmap_max _ _ _ ER j HI) as (n & En & Hn).
      destruct (sget L ss j) as [o| |] eqn:EG; cbn [rbind] in En; try discriminate. injection En as <-. apply (below_mono _ _ (so_level o)); [lia|]. now apply sget_below.
    - unfold sym_zero_padded in E. apply GET in E. destruct E as (o' & _ & EG & E). injection E as <-. apply ADD; [exact IH|]. cbn. now apply sget_below.
  Qed.

  Lemma pow_pos n : 0 < 2 ^ n. Proof. apply Nat.neq_0_lt_0, Nat.pow_nonzero. lia. Qed.
  Lemma shifted_in l sv n b o (f : nat -> F) x : b <= n -> 0 < o < 2 ^ b -> x < 2 ^ n -> (forall y, y < 2 ^ n -> inl l (f y)) -> inl l (shifted_value sv b o f x).
  Proof.
    intros Hb Ho Hx H. unfold shifted_value. cbv zeta. pose proof (Nat.mod_upper_bound x (2 ^ b) ltac:(lia)) as M. pose proof (Nat.mod_upper_bound (x mod 2 ^ b + (2 ^ b - o)) (2 ^ b) ltac:(lia)) as M2.
    assert (E2 : 2 ^ n = 2 ^ b * 2 ^ (n - b)) by (rewrite <- Nat.pow_add_r; f_equal; lia). pose proof (Nat.div_mod x (2 ^ b) ltac:(lia)) as DM.
    assert (DL : x / 2 ^ b < 2 ^ (n - b)) by (apply Nat.div_lt_upper_bound; [lia|]; now rewrite <- E2).
    assert (IN : forall z, z < 2 ^ b -> x - x mod 2 ^ b + z < 2 ^ n) by (intros z Hz; rewrite E2; nia).
    destruct sv.
    - apply H. now apply IN.
    - destruct (o <=? x mod 2 ^ b); [apply H; lia|apply in_0].
    - destruct (x mod 2 ^ b + o <? 2 ^ b) eqn:EL; [|apply in_0]. apply Nat.ltb_lt in EL. apply H. specialize (IN _ EL). lia.
  Qed.

  (** C82: every value of every oracle lies in the subfield of its recorded level. *)
  Theorem levels_hold_partial ss sizes V : built L ss -> shapes_ok L ss sizes -> constants_in L ss -> leaves_in L ss sizes V -> all_declared L ss sizes V ->
    forall i o x, nth_error ss i = Some o -> rows L sizes o <> 0 -> x < 2 ^ vars L sizes o -> inl (so_level o) (V i x).
  Proof.
    intros B (_ & SH) CI LV AD. induction i as [i IH] using (well_founded_induction lt_wf). intros o x E NZ Hx.
    pose proof (SH i o E NZ) as S. pose proof (AD i o E NZ x Hx) as D. pose proof (built_rules ss B i o E) as R. specialize (CI i o E). specialize (LV i o x E).
    assert (OLD : forall j m l, older L ss sizes i j m -> below ss j l -> forall y, y < 2 ^ m -> inl l (V j y)).
    { intros j m l (LT & o' & E' & NZ' & Em) (o2 & E2 & Hl) y Hy. rewrite E' in E2. injection E2 as <-. subst m. apply (in_mono L _ _ _ Hl). now apply (IH j LT o' y E' NZ'). }
    unfold level_rule in R. set (n := vars L sizes o) in *. destruct (so_variant o) as [| p | c | j | j vs st | j off b sv | j d | off inner | j pad nz s | ids c] eqn:EV; cbn [shape_ok declared] in S, D.
    - apply LV; auto.
    - apply LV; eauto.
    - apply (in_evaluate L (so_level o) c _ _) in D; [exact D| |].
      + intros v HI. apply in_app_or in HI. destruct HI as [HI|HI]; [eapply in_vertex; eauto|]. apply repeat_spec in HI. subst v. apply in_0.
      + intros v HI. apply in_min. etransitivity; [|exact R]. clear -HI. unfold circuit_level. induction c as [|a c IH]; [destruct HI|]. cbn [map fold_right]. destruct HI as [->|HI]; [lia|]. specialize (IH HI). lia.
    - destruct S as (m & Hm & O). pose proof O as O'. destruct O as (_ & o' & E' & _ & Em). rewrite (D o' E'), Em. apply (OLD j m); auto. apply Nat.mod_upper_bound, Nat.pow_nonzero. lia.
    - destruct st as [st|].
      + destruct S as [HS O]. rewrite D. assert (LEN : length (vertex (F := F) st x ++ vs ++ vertex (n - st) (x / 2 ^ st)) = n + length vs) by (rewrite !app_length, !vertex_length; lia).
        apply in_mle; [|intros y Hy; rewrite LEN in Hy; now apply (OLD j (n + length vs))].
        intros v HI. apply in_app_or in HI. destruct HI as [HI|HI]; [eapply in_vertex; eauto|]. apply in_app_or in HI. destruct HI as [HI|HI]; [now apply CI|eapply in_vertex; eauto].
      + destruct S as [-> O]. rewrite D, app_nil_r. apply in_mle; [intros v HI; eapply in_vertex; eauto|]. intros y Hy. rewrite vertex_length in Hy. now apply (OLD j n).
    - destruct S as [[Hb Ho] O]. rewrite D. apply (shifted_in _ sv n); auto. intros y Hy. now apply (OLD j n).
    - destruct R as (o' & E' & EL). rewrite (D o' E'), EL. apply in_sum. intros k Hk. apply in_mul; [now apply in_basis|].
      apply (OLD j (n + d)); [exact S|exists o'; split; [exact E'|lia]|]. rewrite Nat.pow_add_r. pose proof (pow_pos d). nia.
    - destruct R as [R1 R2]. rewrite D. apply in_add; [now apply in_min|]. clear D EV CI LV. induction inner as [|[j c] inner IHi]; cbn [fold_right]; [apply in_0|]. cbn [fst snd].
      destruct (R2 j c (or_introl eq_refl)) as [Rc Rb]. apply in_add; [apply in_mul; [now apply in_min|]|apply IHi].
      + apply (OLD j n); auto. apply (S j c). now left.
      + intros j' c' HI. apply (S j' c'). now right.
      + intros j' c' HI. apply R2. now right.
    - destruct S as (S1 & S2 & O). rewrite D. destruct (_ =? nz); [|apply in_0]. apply (OLD j (n - pad)); auto.
      pose proof (pow_pos s). pose proof (Nat.mod_upper_bound x (2 ^ s) ltac:(lia)) as M. assert (E2 : 2 ^ (n - pad) = 2 ^ s * 2 ^ (n - (s + pad))) by (rewrite <- Nat.pow_add_r; f_equal; lia).
      assert (DL : x / 2 ^ (s + pad) < 2 ^ (n - (s + pad))). { apply Nat.div_lt_upper_bound; [pose proof (pow_pos (s + pad)); lia|]. rewrite <- Nat.pow_add_r. now replace (s + pad + (n - (s + pad))) with n by lia. }
      rewrite E2. nia.
    - destruct S as (S1 & _). apply (in_evaluate L (so_level o) c _ _) in D; [exact D| |exact CI]. intros v HI. apply in_map_iff in HI. destruct HI as (j & <- & HI). apply (OLD j n); auto.
  Qed.
End Levels.

(* -------------------------------------------------------------------- *)
(** * Examples *)
(** The oracles of C77, a column of eight two-bit values and what follows from it. *)
Definition col82 : nat -> TF 2 := fun x => nth x (map el [2; 3; 0; 1; 1; 2; 3; 3]%N) (f0 : TF 2).
Definition vals82 : values 2 := fun i x =>
  match i with
  | 0 => col82 x
  | 1 => mle (F := TF 2) col82 (vertex (F := TF 2) 0 x ++ [f1] ++ vertex (F := TF 2) (2 - 0) (x / 2 ^ 0))
  | 2 => shifted_value CircularLeft 1 1 col82 x
  | 3 => sumn (2 ^ 1) (fun k => fmul (basis_product 2 1 k) (col82 (x * 2 ^ 1 + k)))
  | _ => (el 5 + (el 3 * col82 x + (el 7 * shifted_value CircularLeft 1 1 col82 x + 0)))%F
  end.
Fact sym16_made : built 2 sym16.
Proof.
  refine (B_linear 2 (firstn 5 sym16) 0 1 (el 5) [(0, el 3); (2, el 7)] (sym16, 5) _ eq_refl).
  refine (B_committed 2 (firstn 4 sym16) 1 0 0 _).
  refine (B_packed 2 (firstn 3 sym16) 0 0 0 1 (firstn 4 sym16, 3) _ eq_refl).
  refine (B_shifted 2 (firstn 2 sym16) 0 1 0 1 1 CircularLeft (firstn 3 sym16, 2) _ eq_refl).
  refine (B_projected 2 (firstn 1 sym16) 0 0 0 [f1] (Some 0) (firstn 2 sym16, 1) _ eq_refl).
  refine (B_committed 2 [] 0 1 1 _). apply B_empty.
Qed.
Fact vals82_ok : constants_in 2 sym16 /\ leaves_in 2 sym16 [3; 0] vals82 /\ all_declared 2 sym16 [3; 0] vals82.
Proof.
  split; [|split].
  - intros i o E. destruct i as [|[|[|[|[|[|i]]]]]]; cbn [nth_error sym16] in E; try (destruct i; discriminate); injection E as <-; cbn [so_variant so_level]; auto.
    intros v [<-|[]]. apply in_1.
  - intros i o x E H NZ Hx. destruct i as [|[|[|[|[|[|i]]]]]]; cbn [nth_error sym16] in E; try (destruct i; discriminate); injection E as <-;
      try (destruct H as [H|[p H]]; discriminate H); [|exfalso; apply NZ; reflexivity].
    cbn [so_level vals82]. change (vars 2 [3; 0] (mkSym 0 1 1 SymCommitted)) with 3 in Hx. do 8 (destruct x as [|x]; [reflexivity|]). cbn in Hx. lia.
  - intros i o E NZ x Hx. destruct i as [|[|[|[|[|[|i]]]]]]; cbn [nth_error sym16] in E; try (destruct i; discriminate); injection E as <-; cbn [declared so_variant].
    + exact I.
    + replace (vars 2 [3; 0] _) with 2 by reflexivity. reflexivity.
    + reflexivity.
    + intros o E. injection E as <-. reflexivity.
    + exfalso. apply NZ. reflexivity.
    + reflexivity.
Qed.
(** All of the values are in the recorded levels 1, 1, 1, 2, 2; the packed column has values outside of the level of its parts. *)
Fact levels82 : (forall x, x < 4 -> in_level 2 1 (vals82 1 x)) /\ (forall x, x < 4 -> in_level 2 2 (vals82 3 x)) /\ ~ in_level 2 1 (vals82 3 0) /\ ~ in_level 2 0 (vals82 0 0).
Proof.
  destruct vals82_ok as (C & Lv & D). pose proof (levels_hold_partial 2 sym16 [3; 0] vals82 sym16_made (proj1 sym16_shapes) C Lv D) as H.
  split; [intros x Hx; apply (H 1 _ x eq_refl); [discriminate|exact Hx]|]. split; [intros x Hx; apply (H 3 _ x eq_refl); [discriminate|exact Hx]|].
  split; intros X; vm_compute in X; discriminate X.
Qed.

(** A composition with a constant: [composite_mle] does not look at the constants of its circuit. *)
Theorem composite_level_refuted : exists ss V o, built 2 ss /\ shapes_ok 2 ss [1] /\ leaves_in 2 ss [1] V /\ all_declared 2 ss [1] V /\
  nth_error ss 1 = Some o /\ so_level o = 0 /\ ~ in_level 2 (so_level o) (V 1 0).
Proof.
  pose (c := cadd (cvar 0) (cconst (el 2)) : circuit X16). exists [mkSym 0 0 0 SymCommitted; mkSym 0 0 0 (SymComposite [0] c)], (fun i _ => if i =? 0 then f1 else (f1 + el 2)%F), (mkSym 0 0 0 (SymComposite [0] c)).
  split; [refine (B_composite 2 _ 0 0 [0] c (_, 1) (B_committed 2 [] 0 0 0 (B_empty 2)) eq_refl)|]. split; [|split; [|split; [|split; [reflexivity|split; [reflexivity|]]]]].
  - split; [intros o [<-|[<-|[]]]; cbn; lia|]. intros [|[|[|i]]] o E _; try discriminate E; injection E as <-; cbn [shape_ok so_variant]; [exact I|].
    split; [intros j [<-|[]]; split; [lia|]; eexists; repeat split; discriminate|]. split; [|split; [cbn; lia|reflexivity]].
    destruct (circuits_wf X16) as (HC & HV & HO & _). apply HO; [apply HV|apply HC].
  - intros [|[|[|i]]] o x E H; try discriminate E; injection E as <-; [intros; apply in_1|]. destruct H as [H|[p H]]; discriminate H.
  - intros [|[|[|i]]] o E _ x _; try discriminate E; injection E as <-; cbn [declared so_variant]; [exact I|]. reflexivity.
  - intros X. vm_compute in X. discriminate X.
Qed.
(** A projection at a point of a larger field; a comment in the code says that its level is wrong. *)
Theorem projected_level_refuted : exists ss V o, built 2 ss /\ shapes_ok 2 ss [1] /\ leaves_in 2 ss [1] V /\ all_declared 2 ss [1] V /\
  nth_error ss 1 = Some o /\ so_level o = 0 /\ ~ in_level 2 (so_level o) (V 1 0).
Proof.
  pose (v := fun x : nat => if x =? 0 then f0 else f1 : TF 2). exists [mkSym 0 1 0 SymCommitted; mkSym 0 0 0 (SymProjected 0 [el 2] (Some 0))],
    (fun i x => if i =? 0 then v x else mle (F := TF 2) v (vertex (F := TF 2) 0 x ++ [el 2] ++ vertex (F := TF 2) (0 - 0) (x / 2 ^ 0))), (mkSym 0 0 0 (SymProjected 0 [el 2] (Some 0))).
  split; [refine (B_projected 2 _ 0 0 0 [el 2] (Some 0) (_, 1) (B_committed 2 [] 0 1 0 (B_empty 2)) eq_refl)|]. split; [|split; [|split; [|split; [reflexivity|split; [reflexivity|]]]]].
  - split; [intros o [<-|[<-|[]]]; cbn; lia|]. intros [|[|[|i]]] o E _; try discriminate E; injection E as <-; cbn [shape_ok so_variant]; [exact I|].
    split; [cbn; lia|]. split; [lia|]. eexists; repeat split; discriminate.
  - intros [|[|[|i]]] o x E H; try discriminate E; injection E as <-; [intros; cbn [Nat.eqb so_level]; unfold v; destruct (x =? 0); [apply in_0|apply in_1]|]. destruct H as [H|[p H]]; discriminate H.
  - intros [|[|[|i]]] o E _ x _; try discriminate E; injection E as <-; cbn [declared so_variant]; [exact I|]. replace (vars 2 [1] _) with 0 by reflexivity. reflexivity.
  - intros X. vm_compute in X. discriminate X.
Qed.
