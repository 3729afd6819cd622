(** Model of the signed gadgets of crates/m3/src/gadgets/mul.rs (MulSU32, SignConverter, TwosComplement) and div.rs (DivSS32),
    on top of GadgetModel.v. *)
Require Import Coq.NArith.NArith Coq.Arith.Arith Coq.Lists.List Coq.Bool.Bool.
From Verif Require Import Base.Fld Base.Lists Base.Sums M3.TableModel M3.GadgetModel.
Import ListNotations.
Local Open Scope nat_scope.

Section Signed.
  Variable F : field.
  Variable basis : nat -> F.
  Notation B := (builder F).
  Notation "x +e y" := (EAdd F x y) (at level 50, left associativity).
  Notation "x *e y" := (EMul F x y) (at level 40, left associativity).
  Local Coercion ECol' (c : col) : expr F := ECol F c.
  Notation one := (EConst F f1).

  (** mul.rs 776-786 TwosComplement *)
  Record twos := mkTwos { tc_inverted : list col; tc_incr : incr; tc_xin : list col; tc_result : list col }.
  (** mul.rs 791-803 TwosComplement::new *)
  Definition twos_new (n : nat) (xin : list col) : B twos :=
    bld inverted <- from_fn F n 0 (fun i => add_computed F 1 true (nthc xin i +e one));
    bld inner <- incr_new F n inverted;
    bret F (mkTwos inverted inner xin (i_zout inner)).

  (** mul.rs 729-735 SignConverter *)
  Record sign_conv := mkSc { sc_twos : twos; sc_bits : list col }.
  (** mul.rs 749-766 SignConverter::new *)
  Definition sign_converter_new (n : nat) (xin : list col) (conditional : expr F) : B sign_conv :=
    bld tc <- twos_new n xin;
    bld converted <- from_fn F n 0 (fun bit => add_computed F 1 true (nthc (tc_result tc) bit *e conditional +e (conditional +e one) *e nthc xin bit));
    bret F (mkSc tc converted).

  (** mul.rs 595-609 MulSU32 *)
  Record mul_su := mkMulSU { mu_inner : mul; mu_x_bits : list col; mu_y_bits : list col; mu_y_sub : wide_sub; mu_low_bits : list col; mu_high_bits : list col }.
  (** mul.rs 612-656 MulSU32::new, for [n]-bit operands *)
  Definition mul_su_new (lb n : nat) (g : F) : B mul_su :=
    bld x_in_bits <- add_committed_multiple F n 1 true;
    bld y_in_bits <- add_committed_multiple F n 1 true;
    bdo add_computed F 1 false (pack_fp F basis x_in_bits) ;;
    bdo add_computed F 1 false (pack_fp F basis y_in_bits) ;;
    let x_is_negative := nthc x_in_bits (n - 1) in
    bld inner <- mul_with_inputs F basis n g x_in_bits y_in_bits;
    let prod_high := m_high_bits inner in
    bld y_sub <- wide_sub_new F lb n prod_high y_in_bits commit_z;
    bld out_high <- from_fn F n 0 (fun bit => add_computed F 1 true (nthc prod_high bit +e x_is_negative *e (nthc prod_high bit +e nthc (ws_zout y_sub) bit)));
    let low := m_low_bits inner in
    bdo add_computed F 1 false (pack_fp F basis out_high) ;;
    bdo add_computed F 1 false (pack_fp F basis low) ;;
    bret F (mkMulSU inner x_in_bits y_in_bits y_sub low out_high).

  (** div.rs 196-216 DivSS32 *)
  Record div_ss := mkDivSS { e_mul : mul_ss; e_sum : wide_add; e_sub : wide_add; e_abs_r : sign_conv; e_neg_abs_q : sign_conv;
    e_p_bits : list col; e_q_bits : list col; e_div_bits : list col; e_rem_bits : list col }.
  (** div.rs 219-318 DivSS32::new, for [n]-bit operands *)
  Definition div_ss_new (lb n : nat) (g : F) : B div_ss :=
    bld p_in_bits <- add_committed_multiple F n 1 true;
    bld q_in_bits <- add_committed_multiple F n 1 true;
    bdo add_computed F 1 false (pack_fp F basis p_in_bits) ;;
    bld q_in <- add_computed F 1 false (pack_fp F basis q_in_bits);
    let sign_extend l := map (fun i => if i <? n then nthc l i else nthc l (n - 1)) (seq 0 (2 * n)) in
    bld out_div_bits <- add_committed_multiple F n 1 true;
    bld out_rem_bits <- add_committed_multiple F n 1 true;
    bdo assert_zero F 1 (nthc p_in_bits (n - 1) +e nthc out_rem_bits (n - 1)) ;;
    bdo add_computed F 1 false (pack_fp F basis out_div_bits) ;;
    bdo add_computed F 1 false (pack_fp F basis out_rem_bits) ;;
    bld mul_inner <- mul_ss_with_input F basis lb n g q_in_bits out_div_bits;
    bdo assert_nonzero F 1 q_in ;;
    let out_bits := map (fun i => if i <? n then nthc (ms_low_bits mul_inner) i else nthc (ms_high_bits mul_inner) (i - n)) (seq 0 (2 * n)) in
    bld sum <- wide_add_new F lb (2 * n) out_bits (sign_extend out_rem_bits) (mkAddFlags None true true);
    bdo from_fn F (2 * n) 0 (fun bit => assert_zero F 1 (nthc (sign_extend p_in_bits) bit +e nthc (wa_zout sum) bit)) ;;
    let r_is_negative := nthc out_rem_bits (n - 1) in
    bld abs_r <- sign_converter_new (2 * n) (sign_extend out_rem_bits) r_is_negative;
    let q_is_positive := nthc q_in_bits (n - 1) +e one in
    bld neg_abs_q <- sign_converter_new (2 * n) (sign_extend q_in_bits) q_is_positive;
    bld sub <- wide_add_new F lb (2 * n) (sc_bits abs_r) (sc_bits neg_abs_q) (mkAddFlags None true false);
    bdo assert_zero F 1 (nthc (wa_zout sub) (2 * n - 1) +e one) ;;
    bret F (mkDivSS mul_inner sum sub abs_r neg_abs_q p_in_bits q_in_bits out_div_bits out_rem_bits).
End Signed.
