(** Model of the rational basis functions and their derivatives
    (include/splinepy/splines/helpers/basis_functions.hpp). *)
From Coq Require Import List Arith ZArith QArith Qcanon.
From Verif Require Import Base BaseRadix BaseQc S_Grid S_Spline S_Value.
Import ListNotations.
Local Open Scope nat_scope.

(** BSplineLib's FindFirstNonZeroBasisFunction, GetNumberOfNonZeroBasisFunctions
    and basis values, per axis (mathematical definition; the library is not in
    /repo): functions span-p .. span. *)
Definition first_nonzero (a : axis) (u : Qc) : nat :=
  find_span (snd a) (fst a) (n_basis a) u - fst a.
Definition local_shape (axes : list axis) : list nat := map (fun a => fst a + 1) axes.
(** BSplineSupport (113-143): [First()] and [++] enumerate the local offsets,
    first axis fastest; GetIndex1d flattens start + offset with the resolution. *)
Definition support_of (axes : list axis) (us : list Qc) : list nat :=
  let start := map (fun au => first_nonzero (fst au) (snd au)) (combine axes us) in
  map (fun off => flat_id (map n_basis axes) (map (fun ab => fst ab + snd ab) (combine start off)))
      (f_indices (local_shape axes)).
(** EvaluateBasisValues: products of the per-axis functions, same order. *)
Definition local_basis (axes : list axis) (us : list Qc) : list Qc :=
  map (fun off =>
         fold_right Qcmult 1%Qc
           (map (fun auo => let '(a, u, o) := auo in
                  bspline_basis (snd a) (fst a) (n_basis a) u (first_nonzero a u + o))
                (combine (combine axes us) off)))
      (f_indices (local_shape axes)).

(** RationalBSplineBasis, 181-198. *)
Definition rational_basis (bspline_basis : list Qc) (weights : list Qc) (support : list nat) : list Qc :=
  let scaled := map (fun Ni => fst Ni * nth (snd Ni) weights 0)%Qc (combine bspline_basis support) in
  let W := fold_left Qcplus scaled 0%Qc in
  let W_inv := (1 / W)%Qc in
  map (fun rb => rb * W_inv)%Qc scaled.

(** RationalBSplineBasisDerivative, 257-384.  [N a i]: derivative of multi-order
    [a] of the i-th non-rational function of the support
    (NonRationalBSplineBasisDerivative, BSplineLib); [w i]: its weight. *)
Fixpoint local_ids (order : list nat) (id : nat) : list nat :=
  match order with
  | [] => []
  | 0 :: order => 0 :: local_ids order id
  | o :: order => id mod (o + 1) :: local_ids order ((id - id mod (o + 1)) / (o + 1))
  end.
Fixpoint global_ids (order req : list nat) (id offset : nat) : nat :=
  match order, req with
  | o :: order, r :: req =>
      if o =? 0 then global_ids order req id offset
      else global_ids order req (id + offset * r) (offset * (o + 1))
  | _, _ => id
  end.
Definition is_not_subset (mx req : list nat) : bool :=
  existsb (fun ab => fst ab <? snd ab) (combine mx req).
Definition binom_fact (l r : list nat) : nat :=
  fold_left (fun f ab => f * binom (fst ab) (snd ab)) (combine l r) 1.

Section Derivative.
Variables (N : list nat -> nat -> Qc) (w : nat -> Qc) (n_basis : nat) (order : list nat).
Definition number_of_derivs : nat := global_ids order order 0 1 + 1.
(** 330-336 *)
Definition w_derivative (i : nat) : Qc :=
  fold_left (fun acc ib => acc + w ib * N (local_ids order i) ib)%Qc (seq 0 n_basis) 0%Qc.
Definition A_derivative (i ib : nat) : Qc := (N (local_ids order i) ib * w ib)%Qc.
Definition inv_w_fact : Qc := (1 / w_derivative 0)%Qc.
(** Body of the loop 344-380: [ds] holds derivatives[0 .. i-1], each as a
    function of i_basis. *)
Definition next_derivative (ds : list (nat -> Qc)) (i : nat) (ib : nat) : Qc :=
  (fold_left (fun acc j =>
     if is_not_subset (local_ids order i) (local_ids order j) then acc
     else acc - inj (binom_fact (local_ids order i) (local_ids order j)) * w_derivative j
                * nth (i - j) ds (fun _ => 0) ib)
     (seq 1 i) (A_derivative i ib) * inv_w_fact)%Qc.
Definition all_derivatives (n : nat) : list (nat -> Qc) :=
  fold_left (fun ds i => ds ++ [next_derivative ds i]) (seq 0 n) [].
Definition rational_basis_derivative : list Qc :=
  map (nth (number_of_derivs - 1) (all_derivatives number_of_derivs) (fun _ => 0%Qc)) (seq 0 n_basis).
End Derivative.
