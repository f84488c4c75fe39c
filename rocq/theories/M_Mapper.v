(** splinepy/helpme/mapper.py: derivatives of fields with respect to the coordinates of a
    geometry.  Evaluations of the spline back ends and numpy.linalg.inv are oracles.  The
    arrays over queries are modelled one query at a time; threads are left out. *)
From Coq Require Import List Arith ZArith Bool QArith Qcanon.
From Verif Require Import Base BaseQc S_Value S_Solve.
Import ListNotations.
Local Open Scope list_scope.
Local Open Scope nat_scope.

(** The calls that leave mapper.py: support and basis_derivative of the field (159-175),
    jacobian (142-144) and derivative (213-221) of the geometry, numpy.linalg.inv (142). *)
Record backend := Backend {
  b_support : spline -> list Qc -> list nat;
  b_basis : spline -> list nat -> list Qc -> list Qc;
  b_derivative : spline -> list nat -> list Qc -> list Qc;
  b_jacobian : spline -> list Qc -> list (list Qc);
  b_inv : list (list Qc) -> option (list (list Qc)) }.

Inductive error := ParametricMismatch | PhysicalMismatch | Singular | NotVectorField.
Inductive result (A : Type) := Ok (a : A) | Err (e : error).
Arguments Ok {A} _.
Arguments Err {A} _.

(** dim: columns of the control points. *)
Definition dim_of (s : spline) : nat := length (nth 0 (sp_cps s) []).

(** mapper.py 83-97, __init__; the record is the two references and para_dim. *)
Definition make_mapper (field geometry : spline) : result (spline * spline * nat) :=
  if negb (length (sp_axes geometry) =? length (sp_axes field)) then Err ParametricMismatch
  else if negb (length (sp_axes geometry) =? dim_of geometry) then Err PhysicalMismatch
  else Ok (field, geometry, length (sp_axes geometry)).

(** np.eye(1, M=n, k=i) *)
Definition eye (n i : nat) : list nat := map (fun j => if j =? i then 1 else 0) (seq 0 n).
Definition plus_orders (a b : list nat) : list nat := map (fun p => fst p + snd p) (combine a b).
Definition table (n m : nat) (f : nat -> nat -> Qc) : list (list Qc) :=
  map (fun i => map (f i) (seq 0 m)) (seq 0 n).
Definition sum (n : nat) (f : nat -> Qc) : Qc := qsum (map f (seq 0 n)).
(** Rows of the control points chosen by the support, control_points[supports, :]. *)
Definition chosen_cps (s : spline) (support : list nat) : list (list Qc) :=
  map (fun a => nth a (sp_cps s) []) support.

Record basis_results := BasisResults {
  br_support : list nat;
  br_gradient : option (list (list Qc));
  br_hessian : option (list (list (list Qc)));
  br_laplacian : option (list Qc) }.

(** The second derivatives fill [i, j] for j >= i and are copied to [j, i] (195-226). *)
Definition second_orders (n i j : nat) : list nat := plus_orders (eye n (Nat.min i j)) (eye n (Nat.max i j)).

(** mapper.py 99-262, basis_function_derivatives *)
Definition basis_function_derivatives (B : backend) (m : spline * spline * nat) (u : list Qc)
    (gradient hessian laplacian : bool) : result basis_results :=
  let '(field, geometry, n) := m in
  match b_inv B (b_jacobian B geometry u) with
  | None => Err Singular
  | Some invjac =>
    let support := b_support B field u in
    let k := length support in
    let bf_gradients := table k n (fun s i => nth s (b_basis B field (eye n i) u) 0%Qc) in
    let grads := table k n (fun s j => sum n (fun i => entry bf_gradients s i * entry invjac i j)%Qc) in
    let geo_hessians := map (fun d => table n n (fun i j => nth d (b_derivative B geometry (second_orders n i j) u) 0%Qc)) (seq 0 n) in
    let bf_hessians := map (fun a => table n n (fun l k' =>
        (nth a (b_basis B field (second_orders n l k') u) 0 -
         sum n (fun nn => sum n (fun mm => entry bf_gradients a nn * entry invjac nn mm * entry (nth mm geo_hessians []) l k')))%Qc))
      (seq 0 k) in
    let hessians := map (fun a => table n n (fun i j =>
        sum n (fun l => sum n (fun k' => entry invjac l i * entry (nth a bf_hessians []) l k' * entry invjac k' j))%Qc))
      (seq 0 k) in
    let laplacians :=
      if hessian then map (fun a => sum n (fun i => entry (nth a hessians []) i i)) (seq 0 k)
      else map (fun a => sum n (fun l => sum n (fun i => sum n (fun k' =>
               entry invjac l i * entry (nth a bf_hessians []) l k' * entry invjac k' i))%Qc)) (seq 0 k) in
    Ok (BasisResults support (if gradient then Some grads else None)
          (if hessian then Some hessians else None) (if laplacian then Some laplacians else None))
  end.

Record field_results := FieldResults {
  fr_gradient : option (list (list Qc));
  fr_divergence : option Qc;
  fr_hessian : option (list (list (list Qc)));
  fr_laplacian : option (list Qc) }.

(** A requested entry of a dictionary; absent entries never occur where it is used. *)
Definition got {A} (d : list A) (o : option (list A)) : list A := match o with Some x => x | None => d end.

(** mapper.py 264-363, field_derivatives (the dictionary of basis function values, returned
    on request, is left out) *)
Definition field_derivatives (B : backend) (m : spline * spline * nat) (u : list Qc)
    (gradient divergence hessian laplacian : bool) : result field_results :=
  let '(field, geometry, n) := m in
  match basis_function_derivatives B m u (gradient || divergence) hessian laplacian with
  | Err e => Err e
  | Ok r =>
    let cps := chosen_cps field (br_support r) in
    let k := length (br_support r) in
    let dim := dim_of field in
    let bg := got [] (br_gradient r) in
    let bh := got [] (br_hessian r) in
    let bl := got [] (br_laplacian r) in
    let g := table dim n (fun v d => sum k (fun s => entry bg s d * entry cps s v)%Qc) in
    let h := map (fun v => table n n (fun i j => sum k (fun s => entry (nth s bh []) i j * entry cps s v)%Qc)) (seq 0 dim) in
    if divergence && negb (length (sp_axes field) =? dim) then Err NotVectorField
    else
      let dv := if gradient then sum n (fun i => entry g i i)
                else sum k (fun s => sum n (fun d => entry bg s d * entry cps s d)%Qc) in
      let lp := if hessian then map (fun v => sum n (fun i => entry (nth v h []) i i)) (seq 0 dim)
                else map (fun v => sum k (fun s => nth s bl 0 * entry cps s v)%Qc) (seq 0 dim) in
      Ok (FieldResults (if gradient then Some g else None) (if divergence then Some dv else None)
            (if hessian then Some h else None) (if laplacian then Some lp else None))
  end.
