(** Model of crates/core/src/protocols/gkr_gpa: gkr_gpa.rs, verify.rs and oracles.rs.

    A packed vector is the list of its scalars, [2^lw] per packed element.  Debug assertions are left out. *)
Require Import Coq.Arith.Arith Coq.Lists.List Coq.Bool.Bool.
From Verif Require Import Base.Fld Base.Lists Base.Sums Math.UnivariateModel Protocol.Proto Utils.SortModel
  Sumcheck.SumcheckModel Sumcheck.EqIndModel Sumcheck.ZerocheckModel.
Import ListNotations.

Section Model.
  Variable F : field.
  Local Open Scope fld_scope.

  (** gkr_gpa.rs lines 51-86: the layer with [l] variables from the one below it *)
  Definition next_layer (lw l : nat) (prev : list F) : list F :=
    if (lw <=? l)%nat then
      let half := (2 ^ (l - lw) * 2 ^ lw)%nat in
      let pivot := (length prev - half)%nat in
      map (fun p => fst p * snd p) (combine (firstn half prev) (skipn half prev)) ++
      firstn (Nat.min half (length prev) - pivot) (skipn pivot prev)
    else match prev with
         | [] => []
         | _ => map (fun i => nth i prev 0 * nth (i + 2 ^ l) prev 0) (seq 0 (2 ^ l)) ++ repeat 0 (2 ^ lw - 2 ^ l)
         end.

  (** lines 48-90; layers from the largest to the single product *)
  Fixpoint build_layers (lw l : nat) (prev : list F) : list (list F) :=
    prev :: match l with
            | O => []
            | S l' => build_layers lw l' (next_layer lw l' prev)
            end.

  (** lines 42-93 *)
  Definition gp_witness_new (lw n : nat) (input : list F) : res (list (list F)) :=
    if (2 ^ (n - lw) <? length input / 2 ^ lw)%nat then Err else Ok (build_layers lw n input).

  (** lines 95-98 *)
  Definition gp_n_vars (layers : list (list F)) : nat := (length layers - 1)%nat.

  (** lines 100-105 *)
  Definition grand_product_evaluation (layers : list (list F)) : F :=
    match last layers [] with [] => 1 | x :: _ => x end.

  (** oracles.rs lines 16-25 and 27-45; [n_vars_of] is [oracles.n_vars] *)
  Local Notation gp_claim := (nat * F)%type.
  Definition construct_claims {Id} (n_vars_of : Id -> nat) (ids : list Id) (products : list F) : res (list gp_claim) :=
    if negb (length ids =? length products)%nat then Err
    else Ok (map (fun ip => (n_vars_of (fst ip), snd ip)) (combine ids products)).

  (** a [LayerClaim]: evaluation point and value *)
  Local Notation layer_claim := (list F * F)%type.

  (** oracles.rs lines 47-65 *)
  Definition make_eval_claims {Id} (metas : list Id) (final : list layer_claim) : res (list (Id * list F * F)) :=
    if negb (length metas =? length final)%nat then Err
    else Ok (map (fun mc => (fst mc, fst (snd mc), snd (snd mc))) (combine metas final)).

  (** verify.rs lines 79-100, on reversed vectors *)
  Fixpoint pop_finished (layer_no : nat) (rclaims : list gp_claim) (rlayers fin : list layer_claim)
      : res (list gp_claim * list layer_claim * list layer_claim) :=
    match rclaims with
    | [] => Ok ([], rlayers, fin)
    | c :: rc =>
      if negb (fst c =? layer_no)%nat then Ok (rclaims, rlayers, fin)
      else match rlayers with
           | [] => Panic
           | l :: rl => pop_finished layer_no rc rl (fin ++ [l])
           end
    end.
  Definition process_finished (layer_no : nat) (layers : list layer_claim) (claims : list gp_claim) (fin : list layer_claim)
      : res (list gp_claim * list layer_claim * list layer_claim) :=
    try x <- pop_finished layer_no (rev claims) (rev layers) fin;
    let '(rc, rl, fin') := x in Ok (rev rc, rev rl, fin').

  (** [chunks_exact(2)] *)
  Fixpoint pairs (l : list F) : list (F * F) :=
    match l with a :: b :: r => (a, b) :: pairs r | _ => [] end.

  Fixpoint feqb_list (a b : list F) : bool :=
    match a, b with [], [] => true | x :: a', y :: b' => feqb x y && feqb_list a' b' | _, _ => false end.

  (** verify.rs lines 132-150: the composite claims *)
  Definition layer_sums (claims : list layer_claim) : res (list (comp F * F)) :=
    collect_res (map (fun ic => try c <- index_comp (2 * length claims) [2 * fst ic; 2 * fst ic + 1]%nat bivariate_product;
                                Ok (c, snd (snd ic)))
                     (combine (seq 0 (length claims)) claims)).

  (** verify.rs lines 109-188 *)
  Definition reduce_layer (o : order) (claims : list layer_claim) : vproto F (list layer_claim) :=
    match claims with
    | [] => VRet (Ok [])
    | c0 :: _ =>
      let point := fst c0 in
      if negb (forallb (fun c => feqb_list (fst c) point) claims) then VRet Err
      else
        get sums <- VRet (layer_sums claims);
        get eqc <- VRet (eq_claim_new (length point) (2 * length claims) sums);
        get out <- eqind_verify o DescendingVars [eqc] point;
        get c <- vsample;
        match snd out with
        | [] => VRet Panic
        | evals :: _ => VRet (Ok (map (fun p => (fst out ++ [c], extrapolate_line (fst p) (snd p) c)) (pairs evals)))
        end
    end.

  (** verify.rs lines 49-70: [todo] layers from [layer_no] on *)
  Fixpoint gpa_layers (o : order) (todo layer_no : nat) (claims : list gp_claim) (layers fin : list layer_claim)
      : vproto F (list layer_claim) :=
    get st <- VRet (process_finished layer_no layers claims fin);
    let '(claims', layers', fin') := st in
    match todo with
    | O => VRet (Ok fin')
    | S todo' =>
      get next <- reduce_layer o layers';
      gpa_layers o todo' (S layer_no) claims' next fin'
    end.

  (** verify.rs lines 23-77 *)
  Definition gpa_verify (o : order) (claims : list gp_claim) : vproto F (list layer_claim) :=
    let '(idx, sorted) := stable_sort claims fst true in
    let max_n := match sorted with [] => 0%nat | c :: _ => fst c end in
    get fin <- gpa_layers o max_n 0 sorted (map (fun c => ([], snd c)) sorted) [];
    VRet (Ok (unsort idx (rev fin))).
End Model.

Arguments next_layer {_} _ _ _.
Arguments build_layers {_} _ _ _.
Arguments gp_witness_new {_} _ _ _.
Arguments gp_n_vars {_} _.
Arguments grand_product_evaluation {_} _.
Arguments construct_claims {_ _} _ _ _.
Arguments make_eval_claims {_ _} _ _.
Arguments pop_finished {_} _ _ _ _.
Arguments process_finished {_} _ _ _ _.
Arguments pairs {_} _.
Arguments feqb_list {_} _ _.
Arguments layer_sums {_} _.
Arguments reduce_layer {_} _ _.
Arguments gpa_layers {_} _ _ _ _ _ _.
Arguments gpa_verify {_} _ _.
