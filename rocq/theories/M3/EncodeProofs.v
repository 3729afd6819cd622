(** Compilation of M3 tables: the values of the oracles and the cells of the tables determine each other (for C78). *)
Require Import Coq.NArith.NArith Coq.Arith.Arith Coq.Lists.List Coq.Bool.Bool Lia.
From Verif Require Import Base.Fld Base.Lists Base.Sums Math.MleSpec Math.MleModel Math.ArithModel Math.ArithProofs Math.ArithProps Field.TowerProofs
  Transparent.TransparentModel Transparent.TransparentProps Transparent.TowerBasisProps Transparent.ShiftModel Sumcheck.ZerocheckModel Gkr.ExpModel Cs.ChannelModel Cs.FlushModel Cs.FlushProofs Cs.VerifyModel
  Evalcheck.OracleModel Evalcheck.EvalModel Evalcheck.EvalSpec Evalcheck.EvalMle Evalcheck.EvalProofs Evalcheck.EvalExtend Evalcheck.OracleProps Evalcheck.SymbolicModel Evalcheck.SymbolicProps
  M3.CompileModel M3.CompileSpec M3.RemapProofs M3.BuilderProofs M3.CompileProofs M3.TranslateProofs M3.SystemProofs M3.CellProofs.
Import ListNotations.
Local Close Scope N_scope.
Local Open Scope nat_scope.

Section Encode.
  Variable L : nat.
  Notation F := (TF L).
  Variable ts : list (tbl L).
  Variable ss : sset L.
  Variable m : olookup.
  Variable nz : list nat.
  Variable lk : cid -> nat.
  Variable sizes : list nat.
  Hypothesis OK : tables_ok L ts.
  Hypothesis CP : all_compilable L ts.
  Hypothesis IV : inv L ss m nz (all_cols L ts).
  Hypothesis LK : agrees m lk.
  Hypothesis SF : sizes_fit L ts sizes.

  Notation rows_of := (CompileSpec.rows_of sizes).
  Notation lv_of := (CompileSpec.lv_of L ts).
  Notation view := (CompileSpec.view L lk ts).
  Notation col_oracle := (col_oracle L ts ss m nz lk IV LK).
  Notation col_vars := (col_vars L ts ss m nz lk sizes OK IV LK SF).

  (** the oracle of the data of a constant column *)
  Lemma original i data l j : In i (all_cols L ts) -> ci_def L i = CdConstant L data l -> lk (ci_id L i) = S j ->
    exists p, nth_error ss j = Some (mkSym (fst (ci_id L i)) (ci_lv L i) l (SymTransparent p)) /\ evaluates_to F p (ci_lv L i) (fun x => nth x data f0).
  Proof.
    intros Hi ED EJ. destruct (col_oracle i Hi) as [_ (level & v & _ & VF)]. unfold variant_for in VF. rewrite ED in VF. destruct VF as (j' & p & E & EP & _ & _ & EO). rewrite EJ in E. injection E as <-.
    exists p. split; [exact EO|]. destruct (col_table L ts OK i Hi) as (t & _ & _ & _ & _ & CO). unfold column_ok in CO. rewrite ED in CO. destruct CO as [HD _].
    destruct (constant_poly_ok L data _ HD) as (p' & EP' & EV). rewrite EP in EP'. apply ok_inj in EP'. now subst p'.
  Qed.

  Lemma each_oracle id o : nth_error ss id = Some o -> exists i, In i (all_cols L ts) /\
    (lk (ci_id L i) = id \/ lk (ci_id L i) = S id /\ exists data l, ci_def L i = CdConstant L data l).
  Proof.
    intros E. destruct (inv_cover _ _ _ _ _ IV id) as (i & Hi & [H|[C H]]); [apply nth_error_Some; congruence| |]; exists i; (split; [exact Hi|]).
    - left. apply LK, H.
    - right. split; [apply LK, H|]. unfold is_constant in C. destruct (ci_def L i); try contradiction. eauto.
  Qed.

  Lemma encode_shapes : shapes_ok L ss sizes.
  Proof.
    assert (TL : forall i, In i (all_cols L ts) -> fst (ci_id L i) < length sizes).
    { intros i Hi. destruct (col_table L ts OK i Hi) as (t & Et & _). destruct SF as [CK _]. unfold check_table_sizes in CK. rewrite map_length in CK. destruct (Nat.eqb_spec (length sizes) (length ts)) as [CL|]; [|discriminate]. rewrite CL. apply nth_error_Some. congruence. }
    split.
    - intros o Ho. apply In_nth_error in Ho as [id Ho]. destruct (each_oracle id o Ho) as (i & Hi & [<-|[EJ (data & l & ED)]]).
      + destruct (col_oracle i Hi) as [_ (level & v & E & _)]. rewrite E in Ho. injection Ho as <-. cbn [so_table]. auto.
      + destruct (original i data l id Hi ED EJ) as (p & E & _). rewrite E in Ho. injection Ho as <-. cbn [so_table]. auto.
    - intros id o Ho R. destruct (each_oracle id o Ho) as (i & Hi & [<-|[EJ (data & l & ED)]]).
      + exact (column_shape L ts ss m nz lk sizes OK CP IV LK SF i o Hi Ho R).
      + destruct (original i data l id Hi ED EJ) as (p & E & EV). rewrite E in Ho. injection Ho as <-. unfold vars. cbn [so_variant shape_ok].
        exists (fun x => nth x data f0). destruct EV as [N1 N2]. split; [reflexivity|]. intros q Hq. rewrite N1 in Hq. now rewrite N2, Hq, Nat.eqb_refl.
  Qed.

  (** * From the oracles to the cells *)
  Lemma encode_sound V : all_declared L ss sizes V -> cells_hold L ts sizes (view V).
  Proof.
    intros D c i r j E R Hr Hj. destruct (in_info L ts c i OK E) as [Hi <-]. destruct (col_oracle i Hi) as [_ (level & v & EO & _)].
    set (o := mkSym (fst (ci_id L i)) (ci_lv L i) level v) in *. destruct (col_vars i o Hi EO) as [ER EV].
    assert (R' : rows L sizes o <> 0) by (rewrite ER; exact R).
    apply (column_cell L ts ss m nz lk sizes OK CP IV LK SF V i o r j Hi EO R' Hr Hj).
    - intros data l j0 ED EJ y Hy. destruct (original i data l j0 Hi ED EJ) as (p & E0 & N1 & N2). specialize (D j0 _ E0). unfold vars in D. cbn [so_variant declared] in D. rewrite N1 in D.
      specialize (D R y Hy). rewrite N2, vertex_length, Nat.eqb_refl in D. rewrite mle_on_cube in D by exact Hy. apply ok_inj in D. now rewrite <- D.
    - apply D; [exact EO|exact R'|]. rewrite (EV R'). assert (P : 2 ^ ci_lv L i <> 0) by (apply Nat.pow_nonzero; lia). rewrite Nat.pow_add_r. nia.
  Qed.

  (** * From the cells to the oracles *)
  Lemma cell_ext n (w w' : cells L) i r j : In i (all_cols L ts) -> j < 2 ^ ci_lv L i ->
    (forall i' r' j', In i' (all_cols L ts) -> j' < 2 ^ ci_lv L i' -> w' (ci_id L i') r' j' = w (ci_id L i') r' j') -> cell L ts n w i r j -> cell L ts n w' i r j.
  Proof.
    intros Hi Hj X. destruct (col_table L ts OK i Hi) as (t & Et & TI & TO & Ei & CO). unfold column_ok in CO. unfold cell. cbv zeta. rewrite (X i r j Hi Hj).
    assert (Y : forall n' lv k r' j', column_of L t n' lv k -> j' < 2 ^ lv -> w' k r' j' = w k r' j').
    { intros n' lv k r' j' CK Hj'. destruct (col_ref L ts OK i t n' lv k Hi Et CK) as (i' & Hi' & <- & <- & _). now apply X. }
    set (lv := ci_lv L i) in *. pose proof (Nat.pow_nonzero 2 lv ltac:(lia)) as P0.
    destruct (ci_def L i) as [l|ks c|k' ix b|k' s size bits|k' pad s nz'|k' off b sv|k' d|data l|max|c|bits g l|bits g l] eqn:ED; auto.
    - destruct CO as (CO & _). intros H. rewrite <- H. f_equal. apply map_ext_in. intros k Hk. eauto.
    - destruct CO as (_ & H1 & CO). intros ->. symmetry. eauto.
    - destruct CO as (E0 & CO). intros ->. symmetry. apply (Y _ _ _ _ _ CO). rewrite E0. pose proof (Nat.pow_nonzero 2 size ltac:(lia)) as P1. pose proof (Nat.mod_upper_bound bits _ P1). rewrite Nat.pow_add_r. nia.
    - destruct CO as (E0 & H1 & CO). intros ->. destruct (_ =? nz'); [|reflexivity]. symmetry. apply (Y _ _ _ _ _ CO). apply Nat.mod_upper_bound, Nat.pow_nonzero. lia.
    - destruct CO as (E0 & H1 & CO). intros ->. unfold shifted_value. cbv zeta. pose proof (Nat.pow_nonzero 2 b ltac:(lia)) as P1. pose proof (Nat.mod_upper_bound j _ P1) as B. pose proof (Nat.div_mod j (2 ^ b) P1) as DM.
      assert (EL : 2 ^ lv = 2 ^ b * 2 ^ (lv - b)) by (rewrite <- Nat.pow_add_r; f_equal; lia).
      assert (Q : j / 2 ^ b < 2 ^ (lv - b)) by (apply Nat.div_lt_upper_bound; lia).
      assert (Z : forall y, y < 2 ^ b -> 2 ^ b * (j / 2 ^ b) + y < 2 ^ lv) by (intros y Hy; rewrite EL; nia).
      destruct sv.
      + symmetry. apply (Y _ _ _ _ _ CO). replace (j - j mod 2 ^ b) with (2 ^ b * (j / 2 ^ b)) by lia. apply Z, Nat.mod_upper_bound, P1.
      + destruct (off <=? j mod 2 ^ b); [|reflexivity]. symmetry. apply (Y _ _ _ _ _ CO). lia.
      + destruct (Nat.ltb_spec (j mod 2 ^ b + off) (2 ^ b)) as [Lt|Ge]; [|reflexivity]. symmetry. apply (Y _ _ _ _ _ CO). specialize (Z _ Lt). lia.
    - intros ->. symmetry. apply sumn_ext. intros e He. f_equal. apply (Y _ _ _ _ _ CO). rewrite Nat.pow_add_r. nia.
  Qed.

  (** the values of the oracles when the cells are [w] *)
  Definition owner (id : nat) (i : cinfo L) : bool := lk (ci_id L i) =? id.
  Definition data_of (i : cinfo L) : list F := match ci_def L i with CdConstant _ data _ => data | _ => [] end.
  Definition data_owner (id : nat) (i : cinfo L) : bool := match ci_def L i with CdConstant _ _ _ => lk (ci_id L i) =? S id | _ => false end.
  Definition encoded (w : cells L) : values L := fun id x =>
    match find (owner id) (all_cols L ts) with
    | Some i => w (ci_id L i) (x / 2 ^ ci_lv L i) (x mod 2 ^ ci_lv L i)
    | None => match find (data_owner id) (all_cols L ts) with Some i => nth x (data_of i) f0 | None => f0 end
    end.

  Lemma same_col i i' : In i (all_cols L ts) -> In i' (all_cols L ts) -> lk (ci_id L i) = lk (ci_id L i') -> i = i'.
  Proof.
    intros Hi Hi' E. destruct (col_oracle i Hi) as [H1 _]. destruct (col_oracle i' Hi') as [H2 _]. rewrite E in H1. pose proof (inv_inj _ _ _ _ _ IV _ _ _ H1 H2) as EI.
    pose proof (info_in L ts i OK Hi) as X1. pose proof (info_in L ts i' OK Hi') as X2. congruence.
  Qed.
  Lemma encoded_col w i x : In i (all_cols L ts) -> encoded w (lk (ci_id L i)) x = w (ci_id L i) (x / 2 ^ ci_lv L i) (x mod 2 ^ ci_lv L i).
  Proof.
    intros Hi. unfold encoded. destruct (find (owner _) _) as [i'|] eqn:EF.
    - apply find_some in EF as [Hi' B]. unfold owner in B. apply Nat.eqb_eq in B. now rewrite (same_col i' i Hi' Hi B).
    - pose proof (find_none _ _ EF i Hi) as B. unfold owner in B. rewrite Nat.eqb_refl in B. discriminate.
  Qed.
  Lemma encoded_data w i data l j x : In i (all_cols L ts) -> ci_def L i = CdConstant L data l -> lk (ci_id L i) = S j -> encoded w j x = nth x data f0.
  Proof.
    intros Hi ED EJ. unfold encoded. destruct (find (owner _) _) as [i'|] eqn:EF.
    - exfalso. apply find_some in EF as [Hi' B]. unfold owner in B. apply Nat.eqb_eq in B. destruct (col_oracle i Hi) as [H1 _]. destruct (col_oracle i' Hi') as [H2 _]. rewrite EJ in H1. rewrite B in H2.
      refine (inv_single _ _ _ _ _ IV i j _ Hi _ H1 H2). unfold is_constant. now rewrite ED.
    - destruct (find (data_owner j) _) as [i'|] eqn:EG.
      + apply find_some in EG as [Hi' B]. unfold data_owner in B. destruct (ci_def L i') eqn:ED'; try discriminate. apply Nat.eqb_eq in B. pose proof (same_col i' i Hi' Hi (eq_trans B (eq_sym EJ))) as ->. unfold data_of. now rewrite ED.
      + pose proof (find_none _ _ EG i Hi) as B. unfold data_owner in B. rewrite ED, EJ, Nat.eqb_refl in B. discriminate.
  Qed.
  Lemma encoded_view w i r j : In i (all_cols L ts) -> j < 2 ^ ci_lv L i -> view (encoded w) (ci_id L i) r j = w (ci_id L i) r j.
  Proof. intros Hi Hj. unfold CompileSpec.view. rewrite (encoded_col w i _ Hi), (lv_of_col L ts OK i Hi). destruct (pos_div r _ j Hj) as [-> ->]. reflexivity. Qed.

  Lemma encode_complete w : cells_hold L ts sizes w -> all_declared L ss sizes (encoded w).
  Proof.
    intros CH id o Ho R x Hx. destruct (each_oracle id o Ho) as (i & Hi & [<-|[EJ (data & l & ED)]]).
    - destruct (col_vars i o Hi Ho) as [ER EV]. specialize (EV R). pose proof (Nat.pow_nonzero 2 (ci_lv L i) ltac:(lia)) as P. pose proof (Nat.mod_upper_bound x _ P) as B.
      pose proof (Nat.div_mod x _ P) as DM. assert (Hr : x / 2 ^ ci_lv L i < 2 ^ log2_ceil (rows_of (ci_id L i))).
      { apply Nat.div_lt_upper_bound; [exact P|]. rewrite EV, Nat.pow_add_r in Hx. lia. }
      replace x with (x / 2 ^ ci_lv L i * 2 ^ ci_lv L i + x mod 2 ^ ci_lv L i) by lia.
      apply (column_cell L ts ss m nz lk sizes OK CP IV LK SF (encoded w) i o _ _ Hi Ho R Hr B).
      + intros data l j0 ED EJ y _. now apply (encoded_data w i data l).
      + apply (cell_ext _ w); [exact Hi|exact B|intros; now apply encoded_view|]. apply CH; [now apply info_in|rewrite <- ER; exact R|exact Hr|exact B].
    - destruct (original i data l id Hi ED EJ) as (p & E & N1 & N2). rewrite E in Ho. injection Ho as <-. unfold vars in *. cbn [so_variant declared] in *. rewrite N1 in *.
      rewrite N2, vertex_length, Nat.eqb_refl. rewrite mle_on_cube by exact Hx. now rewrite (encoded_data w i data l id x Hi ED EJ).
  Qed.
End Encode.
