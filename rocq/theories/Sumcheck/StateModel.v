(** Model of the state shared by the CPU sumcheck provers:
    crates/hal/src/{sumcheck_multilinear,sumcheck_folding,sumcheck_round_calculation,common}.rs and
    crates/core/src/protocols/sumcheck/prove/prover_state.rs.

    Slices of packed elements are flat lists of scalars ([lw] = [P::LOG_WIDTH]).  [junk n]: content of
    [n] scalars of memory that is not initialised or left over from earlier work of the same thread. *)
Require Import Coq.Arith.Arith Coq.Lists.List Coq.Bool.Bool.
From Verif Require Import Base.Fld Base.Lists Base.Sums Math.MleModel Math.UnivariateModel Math.SubcubeModel
  Sumcheck.SumcheckModel.
Import ListNotations.

Section Model.
  Variable F : field.
  Variable lw : nat.
  (** [MAX_SRC_SUBCUBE_LOG_BITS - Underlier::LOG_BITS] (common.rs line 9) *)
  Variable max_src_vars : nat.
  Variable junk : nat -> list F.
  Local Open Scope fld_scope.

  (** A [MultilinearPoly]: an adapter around a multilinear extension.  [mp_direct]: it is the direct
      adapter; [mp_same]: its packed type is [P]; [mp_lw]: its packing. *)
  Record mpoly : Type := mkPoly { mp_direct : bool; mp_same : bool; mp_lw : nat; mp_mle : mlext F }.

  (** sumcheck_multilinear.rs lines 8-27 *)
  Inductive smle : Type :=
  | Transp (m : mpoly) (switchover : nat) (suffix : F) (suffix_len : nat)
  | Folded (evals : list F) (suffix : F).

  (** sumcheck_multilinear.rs lines 30-38 *)
  Definition transparent (m : mpoly) (switchover : nat) : smle := Transp m switchover 0 0.
  (** lines 40-45 *)
  Definition folded (evals : list F) : smle := Folded evals 0.
  (** lines 47-58 *)
  Definition const_suffix (n : nat) (m : smle) : F * nat :=
    match m with
    | Transp _ _ s l => (s, l)
    | Folded evals s => (s, (2 ^ n - length evals / 2 ^ lw * 2 ^ lw)%nat)
    end.
  (** lines 60-76 *)
  Definition update_const_suffix (n : nat) (s : F) (l : nat) (m : smle) : smle :=
    match m with
    | Transp p sw _ _ => Transp p sw s l
    | Folded evals _ => Folded (firstn (div_ceil (2 ^ n - l) (2 ^ lw) * 2 ^ lw) evals) s
    end.

  (** common.rs lines 22-35 *)
  Definition subcube_vars_for_bits (max_subcube_src_vars inner_product_vars max_total_vars : nat) : nat :=
    let src_vars := Nat.min max_subcube_src_vars max_src_vars in
    Nat.min (Nat.max (src_vars - inner_product_vars) lw) max_total_vars.

  (* ---------------------------------------------------------------- folding *)

  (** sumcheck_folding.rs lines 66-95 / 175-205: the evaluations after substituting the challenges.
      [scalars]: number of scalars to keep *)
  Definition switchover_chunks (get : nat -> list F -> res (list F)) (sv scalars : nat) : res (list F) :=
    try chunks <- collect_res (map (fun i => get i (repeat 0 (2 ^ (sv - lw) * 2 ^ lw)))
                                   (seq 0 (div_ceil scalars (2 ^ sv))));
    Ok (firstn (div_ceil scalars (2 ^ lw) * 2 ^ lw) (concat chunks)).

  (** sumcheck_folding.rs lines 37-147: [n] variables before folding.  The boolean: still transparent. *)
  Definition fold_low_to_high (n : nat) (r : F) (tq : option (mquery F)) (m : smle) : res (smle * bool) :=
    if (n =? 0)%nat then Panic
    else match m with
    | Transp p sw suffix slen =>
      if (sw =? 0)%nat then
        try q <- of_opt tq;
        if (q_nvars q =? 0)%nat then Panic
        else if (2 ^ me_mu (mp_mle p) <? slen)%nat then Panic
        else
          let prefix := (2 ^ me_mu (mp_mle p) - slen)%nat in
          try ev <- (if (prefix <? 2 ^ n)%nat then
              let sv := subcube_vars_for_bits (Nat.log2_up prefix) (q_nvars q) (n - 1) in
              switchover_chunks (subcube_partial_low_evals lw (mp_mle p) q sv) sv (div_ceil prefix (2 ^ q_nvars q))
            else try m' <- evaluate_partial_low lw (mp_mle p) q; Ok (me_evals m'));
          Ok (Folded ev suffix, false)
      else Ok (Transp p (sw - 1) suffix slen, true)
    | Folded evals suffix =>
      let len := (length evals / 2 ^ lw)%nat in
      let new_len := div_ceil len 2 in
      try o <- fold_right_lerp lw evals (len * 2 ^ lw) r suffix (repeat 0 (new_len * 2 ^ lw));
      let o' := if (0 <? len)%nat && (len mod 2 =? 1)%nat && (0 <? lw)%nat
                then fold_left (fun o i => upd o ((new_len - 1) * 2 ^ lw + i)%nat suffix)
                               (seq (2 ^ lw / 2) (2 ^ lw - 2 ^ lw / 2)) o
                else o in
      Ok (Folded o' suffix, false)
    end.

  (** sumcheck_folding.rs lines 149-241 *)
  Definition fold_high_to_low (n : nat) (r : F) (tq : option (mquery F)) (m : smle) : res (smle * bool) :=
    match m with
    | Transp p sw suffix slen =>
      if (sw =? 0)%nat then
        try q <- of_opt tq;
        if (2 ^ me_mu (mp_mle p) <? slen)%nat then Panic
        else
          let prefix := (2 ^ me_mu (mp_mle p) - slen)%nat in
          try ev <- (if (prefix <? 2 ^ n)%nat then
              let sv := subcube_vars_for_bits (Nat.log2_up prefix) (q_nvars q) (n - 1) in
              switchover_chunks (subcube_partial_high_evals lw (mp_mle p) q sv) sv
                (Nat.min prefix (2 ^ (me_mu (mp_mle p) - q_nvars q)))
            else
              try m' <- evaluate_partial_high (mp_same p) lw (mp_mle p) q
                          (junk (2 ^ (me_mu (mp_mle p) - q_nvars q - lw) * 2 ^ lw));
              Ok (me_evals m'));
          Ok (Folded ev suffix, false)
      else Ok (Transp p (sw - 1) suffix slen, true)
    | Folded evals suffix =>
      try o <- fold_left_lerp_inplace lw evals (Nat.min (length evals / 2 ^ lw * 2 ^ lw) (2 ^ n)) suffix n r;
      Ok (Folded o suffix, false)
    end.

  (** sumcheck_folding.rs lines 16-35, 243-263: the multilinears are folded independently; the
      result tells whether a transparent one is left. *)
  Definition fold_multilinears (o : order) (n : nat) (ms : list smle) (r : F) (tq : option (mquery F))
    : res (list smle * bool) :=
    try l <- collect_res (map (match o with LowToHigh => fold_low_to_high | HighToLow => fold_high_to_low end n r tq) ms);
    Ok (map fst l, existsb snd l).

  (* ---------------------------------------------------------------- round evaluations *)

  (** sumcheck_round_calculation.rs lines 407-504.  [P::unzip(a, b, 0)] of two packed elements
      separates the even from the odd scalars. *)
  Definition deinterleave (s : list F) : list F * list F :=
    let s' := if (length s / 2 ^ lw =? 1)%nat then s ++ repeat 0 (2 ^ lw) else s in
    (map (fun j => nth (2 * j) s' 0) (seq 0 (length s' / 2)), map (fun j => nth (2 * j + 1) s' 0) (seq 0 (length s' / 2))).

  (** lines 452-476, 557-600: [count] scalars of the folded evaluations starting at [offset], padded
      with the constant suffix; a partial packed element is filled up with zeros *)
  Definition folded_slice (evals : list F) (suffix : F) (offset vars : nat) : list F :=
    if (lw <=? vars)%nat then
      let got := firstn (2 ^ vars) (skipn offset evals) in
      got ++ repeat suffix (2 ^ vars - length got)
    else map (fun i => match nth_error evals (Nat.lor offset i) with Some x => x | None => suffix end) (seq 0 (2 ^ vars))
         ++ repeat 0 (2 ^ lw - 2 ^ vars).

  Definition low_to_high_evaluations (m : smle) (sv idx : nat) (tq : mquery F) : res (list F * list F) :=
    try s <- (match m with
      | Transp p _ _ _ =>
        let scratch := junk (2 ^ (sv + 1 - lw) * 2 ^ lw) in
        if (q_nvars tq =? 0)%nat then subcube_evals (mp_direct p) lw (mp_mle p) (sv + 1) idx scratch
        else subcube_partial_low_evals lw (mp_mle p) tq (sv + 1) idx scratch
      | Folded evals suffix => Ok (folded_slice evals suffix (Nat.shiftl idx (sv + 1)) (sv + 1))
      end);
    Ok (deinterleave s).

  (** lines 506-604 *)
  Definition high_to_low_evaluations (m : smle) (sv idx iv : nat) (tq : mquery F) : res (list F * list F) :=
    match m with
    | Transp p _ _ _ =>
      let out := junk (2 ^ (sv - lw) * 2 ^ lw) in
      let idx1 := Nat.lor idx (Nat.shiftl 1 iv) in
      if (q_nvars tq =? 0)%nat then
        try e0 <- subcube_evals (mp_direct p) lw (mp_mle p) sv idx out;
        try e1 <- subcube_evals (mp_direct p) lw (mp_mle p) sv idx1 out;
        Ok (e0, e1)
      else
        try e0 <- subcube_partial_high_evals lw (mp_mle p) tq sv idx out;
        try e1 <- subcube_partial_high_evals lw (mp_mle p) tq sv idx1 out;
        Ok (e0, e1)
    | Folded evals suffix =>
      let offset := Nat.shiftl idx sv in
      Ok (folded_slice evals suffix offset sv,
          folded_slice evals suffix (Nat.lor offset (Nat.shiftl 1 (iv + sv))) sv)
    end.

  (** The trait [SumcheckEvaluator] (sumcheck_evaluator.rs lines 12-74).  [ev_process] returns the
      values on the subcube, of which the code returns the lane-wise sum. *)
  Record evaluator : Type := mkEval
    { ev_start : nat;
      ev_end : nat;
      ev_process : nat -> nat -> bool -> list (list F) -> res (list F);
      ev_constant : nat -> bool -> res F;
      ev_suffix : nat;
      ev_used : list bool }.

  (** sumcheck_round_calculation.rs lines 148-153 *)
  Definition union_range (evs : list evaluator) : nat * nat :=
    match evs with
    | [] => (0, 0)%nat
    | e :: evs' => fold_left (fun r e => (Nat.min (fst r) (ev_start e), Nat.max (snd r) (ev_end e))) evs' (ev_start e, ev_end e)
    end.

  (** lines 170-175 *)
  Definition evaluator_count (n sv : nat) (e : evaluator) : res nat :=
    if (2 ^ (n - 1) <? ev_suffix e)%nat then Panic else Ok (div_ceil (2 ^ (n - 1) - ev_suffix e) (2 ^ sv)).

  (** lines 177-190 *)
  Fixpoint max_used (counts : list nat) (count : nat) (used : list bool) : list nat :=
    match counts, used with
    | c :: counts', u :: used' => (if u then Nat.max c count else c) :: max_used counts' count used'
    | _, _ => counts
    end.
  Definition multilinear_counts (m : nat) (ecs : list (evaluator * nat)) : list nat :=
    fold_left (fun counts ec => max_used counts (snd ec) (ev_used (fst ec))) ecs (repeat 0%nat m).

  (** lines 235-273: the evaluations at the point with index [i] *)
  Definition row_at (points : list F) (i : nat) (e : list F * list F) : option (list F) :=
    match i with
    | O => Some (fst e)
    | S O => Some (snd e)
    | S (S O) => Some (map (fun ab => snd ab - fst ab) (combine (fst e) (snd e)))
    | S (S (S t)) => do z <- nth_error points t;
                     Some (map (fun ab => extrapolate_line (fst ab) (snd ab) z) (combine (fst e) (snd e)))
    end.

  (** lines 197-300, for one subcube: what it adds to each accumulator.  A multilinear that is not
      accessed contributes a left-over row. *)
  Definition subcube_round (o : order) (tq : mquery F) (ms : list smle) (evs : list (evaluator * nat)) (points : list F)
      (range : nat * nat) (sv iv idx : nat) : res (list (list F)) :=
    let counts := multilinear_counts (length ms) evs in
    try es <- collect_res (map (fun mc : smle * nat =>
        if (idx <? snd mc)%nat then
          match o with
          | LowToHigh => low_to_high_evaluations (fst mc) sv idx tq
          | HighToLow => high_to_low_evaluations (fst mc) sv idx iv tq
          end
        else Ok (junk (2 ^ (sv - lw) * 2 ^ lw), junk (2 ^ (sv - lw) * 2 ^ lw))) (combine ms counts));
    try rows <- collect_res (map (fun i =>
        of_opt (omap (fun ec : (list F * list F) * nat =>
          if (snd ec <=? idx)%nat then Some (fst (fst ec)) else row_at points i (fst ec)) (combine es counts)))
        (seq (fst range) (snd range - fst range)));
    collect_res (map (fun ec : evaluator * nat =>
      let e := fst ec in
      collect_res (map (fun i =>
        if (snd ec <=? idx)%nat then Ok 0
        else
          try l <- ev_process e sv idx (i =? 2)%nat (nth (i - fst range) rows []);
          (* line 332: scalars beyond the subcube are dropped *)
          Ok (fsum (firstn (2 ^ sv) l))) (seq (ev_start e) (ev_end e - ev_start e)))) evs).

  (** lines 314-323 and the additions of line 289 *)
  Definition madd (a b : list (list F)) : list (list F) :=
    map (fun xy => map (fun uv => fst uv + snd uv) (combine (fst xy) (snd xy))) (combine a b).

  (** lines 81-349.  [parts]: the split of the subcubes into the jobs of [try_fold]. *)
  Definition calculate_round_evals (parts : nat -> list (list nat)) (o : order) (n : nat) (tq : option (mquery F))
      (ms : list smle) (evs : list evaluator) (points : list F) : res (list (list F)) :=
    if (n =? 0)%nat then Panic
    else
      let tq := match tq with Some q => q | None => with_capacity lw 0 end in
      let range := union_range evs in
      if negb (length points =? snd range - 3)%nat then Err
      else
        let sv := subcube_vars_for_bits (n - 1) (q_nvars tq) (n - 1) in
        try counts <- collect_res (map (evaluator_count n sv) evs);
        let ecs := combine evs counts in
        let iv := (n - 1 - sv)%nat in
        let zero := map (fun e => repeat 0 (ev_end e - ev_start e)) evs in
        try jobs <- collect_res (map (fun part =>
          try l <- collect_res (map (subcube_round o tq ms ecs points range sv iv) part);
          Ok (fold_left madd l zero)) (parts (2 ^ iv)%nat));
        let acc := fold_left madd jobs zero in
        collect_res (map (fun aec : list F * (evaluator * nat) =>
          let '(a, (e, count)) := aec in
          let suffix := (2 ^ n - Nat.shiftl count sv)%nat in
          collect_res (map (fun iv : nat * F =>
            try c <- ev_constant e suffix (fst iv =? 2)%nat;
            Ok (snd iv + c)) (combine (seq (fst range) (length a)) a))) (combine acc ecs)).

  (* ---------------------------------------------------------------- prover_state.rs *)

  (** lines 32-36 *)
  Inductive coeffs_or_sums : Type := Coeffs (l : list (list F)) | Sums (l : list F).

  (** lines 44-63 *)
  Record pstate : Type := mkState
    { ps_n : nat; ps_order : order; ps_ms : list smle; ps_points : list F; ps_challenges : list F;
      ps_query : option (mquery F); ps_last : coeffs_or_sums }.

  (** lines 74-130 *)
  Definition switchovers (ms : list smle) : list nat :=
    flat_map (fun m => match m with Transp _ sw _ _ => [sw] | Folded _ _ => [] end) ms.
  Definition ps_new (o : order) (n : nat) (ms : list smle) (sums points : list F) : res pstate :=
    if existsb (fun m => match m with
                         | Transp p _ _ l => negb (me_mu (mp_mle p) =? n)%nat || (2 ^ n <? l)%nat
                         | Folded evals _ => (2 ^ (n - lw) <? length evals / 2 ^ lw)%nat
                         end) ms then Err
    else
      let tq := match switchovers ms with
                | [] => None
                | s :: l => Some (with_capacity lw (Nat.min (fold_left Nat.max l s) n + 1))
                end in
      Ok (mkState n o ms points [] tq (Sums sums)).

  (** lines 136-190 *)
  Definition ps_fold (s : pstate) (r : F) : res pstate :=
    if (ps_n s =? 0)%nat then Err
    else match ps_last s with
    | Sums _ => Err
    | Coeffs cs =>
      let sums := map (fun c => evaluate_univariate c r) cs in
      let challenges := match ps_order s with LowToHigh => ps_challenges s ++ [r] | HighToLow => r :: ps_challenges s end in
      try tq <- (match ps_query s with
                 | None => Ok None
                 | Some q => match ps_order s with
                             | LowToHigh => try q' <- query_update lw q [r]; Ok (Some q')
                             | HighToLow => try q' <- query_expand lw challenges; Ok (Some q')
                             end
                 end);
      try mt <- fold_multilinears (ps_order s) (ps_n s) (ps_ms s) r tq;
      Ok (mkState (ps_n s - 1) (ps_order s) (fst mt) (ps_points s) challenges (if snd mt then tq else None) (Sums sums))
    end.

  (** lines 192-226 *)
  Definition ps_finish (s : pstate) : res (list F) :=
    match ps_last s with
    | Coeffs _ => Err
    | Sums _ =>
      if negb (ps_n s =? 0)%nat then Err
      else collect_res (map (fun m => match m with
        | Transp p _ _ _ => try q <- of_opt (ps_query s); me_evaluate (mp_lw p) lw (mp_mle p) q
        | Folded evals suffix => Ok (match evals with [] => suffix | x :: _ => x end)
        end) (ps_ms s))
    end.

  (** lines 228-265 *)
  Definition ps_round_evals (parts : nat -> list (list nat)) (s : pstate) (evs : list evaluator) : res (list (list F)) :=
    calculate_round_evals parts (ps_order s) (ps_n s) (ps_query s) (ps_ms s) evs (ps_points s).

  (** lines 267-310; an interpolator is the function [round_evals_to_coeffs] *)
  Definition ps_round_coeffs (s : pstate) (interps : list (F -> list F -> res (list F))) (a : F) (evals : list (list F))
    : res (list F * pstate) :=
    match ps_last s with
    | Coeffs _ => Err
    | Sums sums =>
      if negb (length interps =? length sums)%nat then Err
      else
        try cs <- collect_res (map (fun ise : (F -> list F -> res (list F)) * (F * list F) =>
                    fst ise (fst (snd ise)) (snd (snd ise))) (combine interps (combine sums evals)));
        let batched := fold_left rc_add (map (fun cp => rc_mul (fst cp) (snd cp)) (combine cs (powers_from 1 a (length cs)))) [] in
        Ok (batched, mkState (ps_n s) (ps_order s) (ps_ms s) (ps_points s) (ps_challenges s) (ps_query s) (Coeffs cs))
    end.

  (* ---------------------------------------------------------------- shared by the provers *)

  (** crates/core/src/protocols/sumcheck/common.rs lines 246-264 *)
  Definition equal_n_vars_check (ms : list mpoly) : res nat :=
    match ms with
    | [] => Ok 0%nat
    | m :: ms' => if forallb (fun m' => me_mu (mp_mle m') =? me_mu (mp_mle m))%nat ms' then Ok (me_mu (mp_mle m)) else Err
    end.

  (** common.rs lines 299-311; [factory]: the evaluation domain factory *)
  Definition domains_for (factory : nat -> res (evdomain F)) (degrees : list nat) : res (list (intdomain F)) :=
    collect_res (map (fun d => try ed <- factory (d + 1)%nat; interpolation_domain ed) degrees).

  (** [starts_with] *)
  Fixpoint starts_with (l p : list F) : bool :=
    match p, l with
    | [], _ => true
    | a :: p', b :: l' => feqb a b && starts_with l' p'
    | _ :: _, [] => false
    end.

  (** common.rs lines 313-344; [max_by_key] returns the last maximum *)
  Definition nontrivial_points (domains : list (intdomain F)) : res (list F) :=
    match domains with
    | [] => Ok []
    | d :: ds =>
      let largest := fold_left (fun b d => if (ed_size (id_ed b) <=? ed_size (id_ed d))%nat then d else b) ds d in
      if negb (forallb (fun d => ((ed_size (id_ed d) <=? 2)%nat || ed_inf (id_ed d))
                                 && feqb (nth 0 (ed_points (id_ed d)) 0) 0
                                 && feqb (nth 1 (ed_points (id_ed d)) 1) 1) domains) then Err
      else
        let points := ed_points (id_ed largest) in
        if existsb (fun d => negb (starts_with points (ed_points (id_ed d)))) domains then Err
        else Ok (skipn (Nat.min 2 (length points)) points)
    end.

  (** [batch_evaluate] of a composition on a batch of rows, with the [expect] of its callers
      (regular_sumcheck.rs lines 255-266) *)
  Definition batch_evaluate (eval : list F -> res F) (len : nat) (rows : list (list F)) : res (list F) :=
    expect (collect_res (map (fun j => eval (map (fun r => nth j r 0) rows)) (seq 0 len))).
End Model.

Arguments mkPoly {_} _ _ _ _.
Arguments mp_direct {_} _.
Arguments mp_same {_} _.
Arguments mp_lw {_} _.
Arguments mp_mle {_} _.
Arguments Transp {_} _ _ _ _.
Arguments Folded {_} _ _.
Arguments transparent {_} _ _.
Arguments folded {_} _.
Arguments const_suffix {_} _ _ _.
Arguments update_const_suffix {_} _ _ _ _ _.
Arguments switchover_chunks {_} _ _ _ _.
Arguments fold_low_to_high {_} _ _ _ _ _ _.
Arguments fold_high_to_low {_} _ _ _ _ _ _ _.
Arguments fold_multilinears {_} _ _ _ _ _ _ _ _.
Arguments deinterleave {_} _ _.
Arguments folded_slice {_} _ _ _ _ _.
Arguments low_to_high_evaluations {_} _ _ _ _ _ _.
Arguments high_to_low_evaluations {_} _ _ _ _ _ _ _.
Arguments mkEval {_} _ _ _ _ _ _.
Arguments ev_start {_} _.
Arguments ev_end {_} _.
Arguments ev_process {_} _ _ _ _ _.
Arguments ev_constant {_} _ _ _.
Arguments ev_suffix {_} _.
Arguments ev_used {_} _.
Arguments union_range {_} _.
Arguments evaluator_count {_} _ _ _.
Arguments multilinear_counts {_} _ _.
Arguments row_at {_} _ _ _.
Arguments subcube_round {_} _ _ _ _ _ _ _ _ _ _ _.
Arguments madd {_} _ _.
Arguments calculate_round_evals {_} _ _ _ _ _ _ _ _ _ _.
Arguments Coeffs {_} _.
Arguments Sums {_} _.
Arguments mkState {_} _ _ _ _ _ _ _.
Arguments ps_n {_} _.
Arguments ps_order {_} _.
Arguments ps_ms {_} _.
Arguments ps_points {_} _.
Arguments ps_challenges {_} _.
Arguments ps_query {_} _.
Arguments ps_last {_} _.
Arguments switchovers {_} _.
Arguments ps_new {_} _ _ _ _ _ _.
Arguments ps_fold {_} _ _ _ _.
Arguments ps_finish {_} _ _.
Arguments ps_round_evals {_} _ _ _ _ _ _.
Arguments ps_round_coeffs {_} _ _ _ _.
Arguments equal_n_vars_check {_} _.
Arguments domains_for {_} _ _.
Arguments starts_with {_} _ _.
Arguments nontrivial_points {_} _.
Arguments batch_evaluate {_} _ _ _.
