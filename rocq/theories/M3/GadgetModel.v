(** Model of the integer gadgets of crates/m3/src/gadgets/{add,sub,mul,div,barrel_shifter}.rs.

    The word size is a parameter: the code uses [lb = 5] (32 bits) for packed columns, and [n] = BIT_LENGTH = 32 or 64 for
    gadgets over separate bit columns.  [v] is the stacking factor of packed columns (32 in U32Add/U32Sub). *)
Require Import Coq.NArith.NArith Coq.Arith.Arith Coq.Lists.List Coq.Bool.Bool.
From Verif Require Import Base.Fld Base.Lists Base.Sums M3.TableModel.
Import ListNotations.
Local Open Scope nat_scope.

Section Gadgets.
  Variable F : field.
  Notation B := (builder F).
  Notation wit := (wit F).
  Notation "x +e y" := (EAdd F x y) (at level 50, left associativity).
  Notation "x *e y" := (EMul F x y) (at level 40, left associativity).
  Local Coercion ECol' (c : col) : expr F := ECol F c.
  Notation one := (EConst F f1).

  (** *** Addition *)
  (** add.rs 42-50 U32AddFlags *)
  Record add_flags := mkAddFlags { carry_in_bit : option col; add_commit_zout : bool; expose_final_carry : bool }.
  (** add.rs 20-40 U32Add *)
  Record u32_add := mkU32Add { a_xin : col; a_yin : col; a_cin : col; a_cout : col; a_cout_shl : col; a_zout : col; a_final_carry : option col }.

  (** add.rs 52-92 U32Add::new, and 188-221 U32AddStacked::new (which has no final carry). *)
  Definition u32_add_new (lb v : nat) (xin yin : col) (flags : add_flags) : B u32_add :=
    bld cout <- add_committed F v true;
    bld cout_shl <- add_shifted F v cout lb 1 LogicalLeft;
    bld cin <- match carry_in_bit flags with Some c => add_computed F v true (cout_shl +e c) | None => bret F cout_shl end;
    bld final_carry <- (if expose_final_carry flags then bld c <- add_selected F cout (2 ^ lb - 1) lb; bret F (Some c) else bret F None);
    bdo assert_zero F v ((xin +e cin) *e (yin +e cin) +e cin +e cout) ;;
    bld zout <- (if add_commit_zout flags then bld z <- add_committed F v true; bdo assert_zero F v (xin +e yin +e cin +e z) ;; bret F z
                else add_computed F v true (xin +e yin +e cin));
    bret F (mkU32Add xin yin cin cout cout_shl zout final_carry).

  (** add.rs 94-139 U32Add::populate (and 223-250): the [m]-bit words written for one pair of inputs and a carry-in of 0 or 1:
      (zout, cin, cout, carry). *)
  Definition u32_add_populate (m x y c : nat) : nat * nat * nat * bool :=
    let x_plus_y := (x + y) mod 2 ^ m in
    let carry0 := 2 ^ m <=? x + y in
    let zout := (x_plus_y + c) mod 2 ^ m in
    let carry1 := 2 ^ m <=? x_plus_y + c in
    let carry := carry0 || carry1 in
    let cin := Nat.lxor (Nat.lxor x y) zout in
    (zout, cin, Nat.lor (Nat.shiftl (Nat.b2n carry) (m - 1)) (Nat.shiftr cin 1), carry).

  (** add.rs 252-269 WideAdd *)
  Record wide_add := mkWideAdd { wa_xin : list col; wa_yin : list col; wa_cin : list col; wa_zout : list col; wa_final_carry : col }.
  Definition nthc (l : list col) (i : nat) : col := nth i l 0.
  (** add.rs 271-325 WideAdd::new; the carry column has [2^lb] values per row. *)
  Definition wide_add_new (lb n : nat) (x_in y_in : list col) (flags : add_flags) : B wide_add :=
    bld cin <- from_fn F n 0 (fun i => if i =? 0 then match carry_in_bit flags with Some c => add_selected F c 0 lb | None => add_committed F 1 true end else add_committed F 1 true);
    bld zout <- (if add_commit_zout flags
      then bld zout <- add_committed_multiple F n 1 true;
           bdo from_fn F n 0 (fun bit => assert_zero F 1 (nthc x_in bit +e nthc y_in bit +e nthc cin bit +e nthc zout bit)) ;;
           bret F zout
      else from_fn F n 0 (fun i => add_computed F 1 true (nthc x_in i +e nthc y_in i +e nthc cin i)));
    bld final_carry_out <- add_committed F 1 true;
    let cout i := if i =? n - 1 then final_carry_out else nthc cin (i + 1) in
    bdo from_fn F n 0 (fun bit => assert_zero F 1 ((nthc x_in bit +e nthc cin bit) *e (nthc y_in bit +e nthc cin bit) +e nthc cin bit +e cout bit)) ;;
    bret F (mkWideAdd x_in y_in cin zout final_carry_out).

  (** add.rs 327-361 WideAdd::populate, for one row: the carries computed from the input bits and the first carry [c]; bit [j] of
      the sum is [x j + y j + wide_carry x y c j], and the final carry is [wide_carry x y c n]. *)
  Fixpoint wide_carry (x y : nat -> F) (c : F) (j : nat) : F :=
    match j with 0 => c | S j => let c := wide_carry x y c j in ((x j + c) * (y j + c) + c)%F end.
  (** add.rs 337-346: the first carry of row [r]: zero, or the [r]-th packed value of the carry column, whose values are read as
      a flat sequence although the column has [2^lb] values per row. *)
  Definition wide_first_carry (w : wit) (flags : add_flags) (r : nat) : F := match carry_in_bit flags with None => f0 | Some c => w c r end.

  (** add.rs 388-401 Incr *)
  Record incr := mkIncr { i_cin : list col; i_input : list col; i_zout : list col; i_final_carry : col }.
  (** add.rs 403-437 Incr::new *)
  Definition incr_new (n : nat) (input : list col) : B incr :=
    bld cin <- from_fn F n 0 (fun i => if i =? 0 then add_constant F [f1] else add_committed F 1 true);
    bld zout <- add_committed_multiple F n 1 true;
    bld final_carry_out <- add_committed F 1 true;
    let cout i := if i =? n - 1 then final_carry_out else nthc cin (i + 1) in
    bdo from_fn F n 0 (fun i => bdo assert_zero F 1 (nthc input i +e nthc cin i +e nthc zout i) ;; assert_zero F 1 (nthc input i *e nthc cin i +e cout i)) ;;
    bret F (mkIncr cin input zout final_carry_out).

  (** *** Subtraction *)
  (** sub.rs 42-50 U32SubFlags *)
  Record sub_flags := mkSubFlags { borrow_in_bit : option col; expose_final_borrow : bool; sub_commit_zout : bool }.
  (** sub.rs 20-40 U32Sub *)
  Record u32_sub := mkU32Sub { s_xin : col; s_yin : col; s_bout : col; s_bout_shl : col; s_bin : col; s_zout : col; s_final_borrow : option col }.

  (** sub.rs 52-98 U32Sub::new *)
  Definition u32_sub_new (lb v : nat) (xin yin : col) (flags : sub_flags) : B u32_sub :=
    bld bout <- add_committed F v true;
    bld bout_shl <- add_shifted F v bout lb 1 LogicalLeft;
    bld bin <- match borrow_in_bit flags with Some c => add_computed F v true (bout_shl +e c) | None => bret F bout_shl end;
    bld final_borrow <- (if expose_final_borrow flags then bld c <- add_selected F bout (2 ^ lb - 1) lb; bret F (Some c) else bret F None);
    bdo assert_zero F v ((bin +e (xin +e one)) *e (bin +e yin) +e bin +e bout) ;;
    bld zout <- (if sub_commit_zout flags then bld z <- add_committed F v true; bdo assert_zero F v (xin +e yin +e bin +e z) ;; bret F z
                else add_computed F v true (xin +e yin +e bin));
    bret F (mkU32Sub xin yin bout bout_shl bin zout final_borrow).

  (** sub.rs 100-157 U32Sub::populate: (zout, bin, bout, borrow); [overflowing_sub] wraps modulo [2^m]. *)
  Definition u32_sub_populate (m x y b : nat) : nat * nat * nat * bool :=
    let x_minus_y := (x + 2 ^ m - y) mod 2 ^ m in
    let borrow1 := x <? y in
    let zout := (x_minus_y + 2 ^ m - b) mod 2 ^ m in
    let borrow2 := x_minus_y <? b in
    let borrow := borrow1 || borrow2 in
    let bin := Nat.lxor (Nat.lxor x y) zout in
    (zout, bin, Nat.lor (Nat.shiftl (Nat.b2n borrow) (m - 1)) (Nat.shiftr bin 1), borrow).

  (** sub.rs 160-175 WideSub *)
  Record wide_sub := mkWideSub { ws_xin : list col; ws_yin : list col; ws_bin : col; ws_bout : list col; ws_zout : list col; ws_final_borrow : option col }.
  (** sub.rs 177-226 WideSub::new *)
  Definition wide_sub_new (lb n : nat) (xin yin : list col) (flags : sub_flags) : B wide_sub :=
    bld bout <- add_committed_multiple F n 1 true;
    bld bin <- from_fn F n 0 (fun i => if i =? 0 then match borrow_in_bit flags with Some c => add_selected F c 0 lb | None => add_constant F [f0] end
                                      else bret F (nthc bout (i - 1)));
    bld zout <- (if sub_commit_zout flags
      then bld zout <- add_committed_multiple F n 1 true;
           bdo from_fn F n 0 (fun bit => assert_zero F 1 (nthc xin bit +e nthc yin bit +e nthc bin bit +e nthc zout bit)) ;;
           bret F zout
      else from_fn F n 0 (fun bit => add_computed F 1 true (nthc xin bit +e nthc yin bit +e nthc bin bit)));
    bret F (mkWideSub xin yin (nthc bin 0) bout zout (if expose_final_borrow flags then Some (nthc bout (n - 1)) else None)).

  (** sub.rs 227-273 WideSub::populate, for one row: the borrows. *)
  Fixpoint wide_borrow (x y : nat -> F) (b : F) (j : nat) : F :=
    match j with 0 => b | S j => let b := wide_borrow x y b j in (y j * b + (f1 + x j) * (b + y j))%F end.

  (** *** Multiplication *)
  Variable basis : nat -> F.
  (** util.rs 13-24 pack_fp *)
  Definition pack_fp (bits : list col) : expr F :=
    match combine bits (seq 0 (length bits)) with
    | [] => EConst F f0
    | (b, i) :: r => fold_left (fun e bi => e +e ECol F (fst bi) *e EConst F (basis (snd bi))) r (ECol F b *e EConst F (basis i))
    end.
  (** mul.rs 94-108 Mul *)
  Record mul := mkMul { m_x_bits : list col; m_y_bits : list col; m_high_bits : list col; m_low_bits : list col; m_xin : col; m_yin : col; m_high : col; m_low : col }.
  (** The generator [g] of the exponentiation field and its [2^n]-th power (mul.rs 56-66, 81-91: [n] squarings). *)
  Fixpoint squarings (n : nat) (g : F) : F := match n with 0 => g | S n => squarings n (g * g)%F end.
  (** mul.rs 126-177 Mul::with_inputs *)
  Definition mul_with_inputs (n : nat) (g : F) (xin_bits yin_bits : list col) : B mul :=
    bld x_in <- add_computed F 1 false (pack_fp xin_bits);
    bld y_in <- add_computed F 1 false (pack_fp yin_bits);
    bld g_pow_x <- add_static_exp F xin_bits g;
    bld g_pow_xy <- add_dynamic_exp F yin_bits g_pow_x;
    bld out_high_bits <- add_committed_multiple F n 1 true;
    bld out_low_bits <- add_committed_multiple F n 1 true;
    bld out_high <- add_computed F 1 false (pack_fp out_high_bits);
    bld out_low <- add_computed F 1 false (pack_fp out_low_bits);
    bld g_pow_out_low <- add_static_exp F out_low_bits g;
    bld g_pow_out_high <- add_static_exp F out_high_bits (squarings n g);
    bdo assert_zero F 1 (nthc xin_bits 0 *e nthc yin_bits 0 +e nthc out_low_bits 0) ;;
    bdo assert_zero F 1 (g_pow_xy +e g_pow_out_low *e g_pow_out_high) ;;
    bret F (mkMul xin_bits yin_bits out_high_bits out_low_bits x_in y_in out_high out_low).
  (** mul.rs 119-124 Mul::new *)
  Definition mul_new (n : nat) (g : F) : B mul :=
    bld x_in_bits <- add_committed_multiple F n 1 true;
    bld y_in_bits <- add_committed_multiple F n 1 true;
    mul_with_inputs n g x_in_bits y_in_bits.

  (** mul.rs 420-434 MulSS32 *)
  Record mul_ss := mkMulSS { ms_inner : mul; ms_y_sub : wide_sub; ms_new_high : list col; ms_x_sub : wide_sub; ms_low_bits : list col; ms_high_bits : list col }.
  Definition commit_z : sub_flags := mkSubFlags None false true.
  (** mul.rs 446-529 MulSS32::with_input *)
  Definition mul_ss_with_input (lb n : nat) (g : F) (xin_bits yin_bits : list col) : B mul_ss :=
    bld xin <- add_computed F 1 false (pack_fp xin_bits);
    bld yin <- add_computed F 1 false (pack_fp yin_bits);
    let x_is_negative := nthc xin_bits (n - 1) in
    let y_is_negative := nthc yin_bits (n - 1) in
    bld inner <- mul_with_inputs n g xin_bits yin_bits;
    let low := m_low_bits inner in
    let prod_high := m_high_bits inner in
    bld y_sub <- wide_sub_new lb n prod_high yin_bits commit_z;
    bld new_high <- from_fn F n 0 (fun bit => add_computed F 1 true (nthc prod_high bit +e x_is_negative *e (nthc prod_high bit +e nthc (ws_zout y_sub) bit)));
    bld x_sub <- wide_sub_new lb n new_high xin_bits commit_z;
    bld out_high <- from_fn F n 0 (fun bit => add_computed F 1 true (nthc new_high bit +e y_is_negative *e (nthc new_high bit +e nthc (ws_zout x_sub) bit)));
    bdo add_computed F 1 false (pack_fp out_high) ;;
    bdo add_computed F 1 false (pack_fp low) ;;
    bret F (mkMulSS inner y_sub new_high x_sub low out_high).

  (** *** Division *)
  (** div.rs 20-36 DivUU32 *)
  Record div_uu := mkDivUU { d_mul : mul; d_sum : wide_add; d_sub : wide_sub; d_p_bits : list col; d_q_bits : list col; d_div_bits : list col; d_rem_bits : list col }.
  (** div.rs 39-121 DivUU32::new, with [n]-bit operands *)
  Definition div_uu_new (lb n : nat) (g : F) : B div_uu :=
    bld zero <- add_constant F [f0];
    bld p_in_bits <- add_committed_multiple F n 1 true;
    bld q_in_bits <- add_committed_multiple F n 1 true;
    bld p_in <- add_computed F 1 false (pack_fp p_in_bits);
    bld q_in <- add_computed F 1 false (pack_fp q_in_bits);
    let zero_extend l := map (fun i => if i <? n then nthc l i else zero) (seq 0 (2 * n)) in
    bld out_div_bits <- add_committed_multiple F n 1 true;
    bld out_rem_bits <- add_committed_multiple F n 1 true;
    bdo add_computed F 1 false (pack_fp out_div_bits) ;;
    bdo add_computed F 1 false (pack_fp out_rem_bits) ;;
    bld mul_inner <- mul_with_inputs n g q_in_bits out_div_bits;
    bdo assert_nonzero F 1 q_in ;;
    let product_cols := map (fun i => if i <? n then nthc (m_low_bits mul_inner) i else nthc (m_high_bits mul_inner) (i - n)) (seq 0 (2 * n)) in
    bld sum <- wide_add_new lb (2 * n) product_cols (zero_extend out_rem_bits) (mkAddFlags None true true);
    bdo from_fn F (2 * n) 0 (fun bit => assert_zero F 1 (nthc (zero_extend p_in_bits) bit +e nthc (wa_zout sum) bit)) ;;
    bld sub <- wide_sub_new lb (2 * n) (zero_extend out_rem_bits) (zero_extend q_in_bits) commit_z;
    bdo assert_zero F 1 (nthc (ws_zout sub) (2 * n - 1) +e one) ;;
    bret F (mkDivUU mul_inner sum sub p_in_bits q_in_bits out_div_bits out_rem_bits).

  (** *** Barrel shifter *)
  (** barrel_shifter.rs 20-47 *)
  Record barrel := mkBarrel { b_input : col; b_amount_bits : list col; b_shifted : list col; b_partial : list col; b_output : col }.
  (** barrel_shifter.rs 83-104: the loop over the bits of the shift amount, from bit [i]; [log_amount] is the logarithm of the
      stacking factor of the shift amount column (4 in the code). *)
  Fixpoint barrel_loop (lb v : nat) (variant : shift_variant) (partial bits : list col) (i : nat) (current : col) : B (list col * col) :=
    match partial, bits with
    | p :: partial, bit :: bits =>
        bld shifted <- add_shifted F v current lb (2 ^ i) variant;
        bld partial_packed <- add_packed F (v / 2 ^ lb) p lb;
        bld shifted_packed <- add_packed F (v / 2 ^ lb) shifted lb;
        bld current_packed <- add_packed F (v / 2 ^ lb) current lb;
        bdo assert_zero F (v / 2 ^ lb) (partial_packed +e (shifted_packed *e bit +e current_packed *e (bit +e one))) ;;
        bld r <- barrel_loop lb v variant partial bits (S i) p;
        bret F (shifted :: fst r, snd r)
    | _, _ => bret F ([], current)
    end.
  (** barrel_shifter.rs 66-117 BarrelShifter::new, with [lb]-bit shift amounts (MAX_SHIFT_BITS = 5) and [2^lb] values per row *)
  Definition barrel_new (lb log_amount : nat) (input shift_amount : col) (variant : shift_variant) : B barrel :=
    bld partial <- from_fn F lb 0 (fun _ => add_committed F (2 ^ lb) true);
    bld bits <- from_fn F lb 0 (fun i => add_selected F shift_amount i log_amount);
    bld r <- barrel_loop lb (2 ^ lb) variant partial bits 0 input;
    bret F (mkBarrel input bits (fst r) partial (snd r)).
End Gadgets.
