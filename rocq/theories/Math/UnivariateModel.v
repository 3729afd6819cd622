(** Model of crates/math/src/univariate.rs.  The domain field and the field of the values are
    identified (the code multiplies elements of an extension by embedded domain elements); packed
    values are scalars (the operations are lane-wise, C09). *)
Require Import Coq.Arith.Arith Coq.Lists.List Coq.Bool.Bool.
From Verif Require Import Base.Fld Base.Lists Base.Sums Math.MleModel Math.MatrixModel.
Import ListNotations.

Section Model.
  Variable F : field.
  Local Open Scope fld_scope.

  (** lines 26-30 *)
  Record evdomain : Type := mkDom { ed_points : list F; ed_weights : list F; ed_inf : bool }.

  (** lines 284-296: [compute_barycentric_weights] *)
  Fixpoint collect_res {A} (l : list (res A)) : res (list A) :=
    match l with
    | [] => Ok []
    | r :: rs => try x <- r; try xs <- collect_res rs; Ok (x :: xs)
    end.
  Definition barycentric_weights (points : list F) : res (list F) :=
    collect_res (map (fun i =>
      let product := fold_left (fun acc j => acc * (nth i points 0 - nth j points 0))
                               (filter (fun j => negb (j =? i)%nat) (seq 0 (length points))) 1 in
      if feqb product 0 then Err else Ok (finv product)) (seq 0 (length points))).

  (** lines 128-135 *)
  Definition from_points (points : list F) (inf : bool) : res evdomain :=
    try w <- barycentric_weights points; Ok (mkDom points w inf).

  (** lines 137-139 *)
  Definition ed_size (d : evdomain) : nat := (length (ed_points d) + if ed_inf d then 1 else 0)%nat.

  (** lines 154-178 *)
  Definition suffix_products (points : list F) (x : F) : option (list F) :=
    let n := length points in
    ofold (fun r i => do y <- nth_error r i; do p <- nth_error points i;
                      if (i - 1 <? length r)%nat then Some (upd r (i - 1) (y * (x - p))) else None)
          (rev (seq 1 (n - 1))) (repeat 1 n).

  Fixpoint prefix_pass (rs points weights : list F) (x prefix : F) : list F :=
    match rs, points, weights with
    | r :: rs', p :: ps', w :: ws' => (r * (prefix * w)) :: prefix_pass rs' ps' ws' x (prefix * (x - p))
    | _, _, _ => rs
    end.

  Definition lagrange_evals (d : evdomain) (x : F) : option (list F) :=
    do r <- suffix_products (ed_points d) x;
    Some (prefix_pass r (ed_points d) (ed_weights d) x 1).

  (** lines 180-211 *)
  Definition extrapolate (d : evdomain) (values : list F) (x : F) : res F :=
    if negb (length values =? ed_size d)%nat then Err
    else
      try li <- of_opt (lagrange_evals d x);
      if ed_inf d then
        match rev values with
        | [] => Panic
        | vinf :: _ =>
          let fin := removelast values in
          let deg := length fin in
          let vals := map (fun pv => snd pv - vinf * fpow (fst pv) deg) (combine (ed_points d) fin) in
          Ok (fold_left (fun a lv => a + snd lv * fst lv) (combine li vals) 0 + vinf * fpow x deg)
        end
      else Ok (fold_left (fun a lv => a + snd lv * fst lv) (combine li values) 0 + 0).

  (** lines 277-282 *)
  Definition evaluate_univariate (coeffs : list F) (x : F) : F :=
    fold_right (fun coeff eval => eval * x + coeff) 0 coeffs.

  (** lines 298-317: row [i] of the matrix is written left to right by multiplying an accumulator *)
  Fixpoint powers_from (acc x : F) (n : nat) : list F :=
    match n with
    | O => []
    | S n' => acc :: powers_from (acc * x) x n'
    end.
  Definition vandermonde (xs : list F) (inf : bool) : option (matrix F) :=
    let n := (length xs + if inf then 1 else 0)%nat in
    let mat := mkMat n n (flat_map (fun x => powers_from 1 x n) xs ++ (if inf then repeat 0 n else [])) in
    if inf then mat_set mat (n - 1) (n - 1) 1 else Some mat.

  Record intdomain : Type := mkInt { id_ed : evdomain; id_mat : matrix F }.

  (** lines 104-125; failure of the inversion is a panic *)
  Definition interpolation_domain (d : evdomain) : res intdomain :=
    let n := ed_size d in
    try v <- of_opt (vandermonde (ed_points d) (ed_inf d));
    try m <- expect (inverse_into v (mat_zeros n n));
    Ok (mkInt d m).

  (** lines 236-245 *)
  Definition interpolate (d : intdomain) (values : list F) : res (list F) :=
    if negb (length values =? ed_size (id_ed d))%nat then Err
    else of_opt (mul_vec_into (id_mat d) values (repeat 0 (length values))).

  (** lines 248-275 *)
  Definition extrapolate_line (x0 x1 z : F) : F := x0 + (x1 - x0) * z.
End Model.

Arguments mkDom {_} _ _ _.
Arguments ed_points {_} _.
Arguments ed_weights {_} _.
Arguments ed_inf {_} _.
Arguments barycentric_weights {_} _.
Arguments from_points {_} _ _.
Arguments ed_size {_} _.
Arguments suffix_products {_} _ _.
Arguments prefix_pass {_} _ _ _ _ _.
Arguments lagrange_evals {_} _ _.
Arguments extrapolate {_} _ _ _.
Arguments evaluate_univariate {_} _ _.
Arguments powers_from {_} _ _ _.
Arguments vandermonde {_} _ _.
Arguments mkInt {_} _ _.
Arguments id_ed {_} _.
Arguments id_mat {_} _.
Arguments interpolation_domain {_} _.
Arguments interpolate {_} _ _.
Arguments extrapolate_line {_} _ _ _.
