(** Specification of derivatives with respect to the coordinates of a geometry. *)
From Coq Require Import List Arith ZArith Bool QArith Qcanon.
From Verif Require Import Base BaseQc S_Value S_Solve.
Import ListNotations.
Local Open Scope list_scope.
Local Open Scope nat_scope.

Definition near (r : Qc) (u w : list Qc) : Prop := Forall2 (fun x y => (qabs (y - x) < r)%Qc) u w.
Definition distance (u w : list Qc) : Qc :=
  qsum (map (fun j => qabs (nth j w 0 - nth j u 0)%Qc) (seq 0 (length u))).
(** [D] lists the partial derivatives of [f] at [u]: f(w) is f(u) + D (w - u) up to an
    error that is small against w - u. *)
Definition total (f : list Qc -> Qc) (u : list Qc) (D : nat -> Qc) : Prop :=
  forall e, (0 < e)%Qc -> exists r, (0 < r)%Qc /\ forall w, near r u w ->
    (qabs (f w - f u - qsum (map (fun j => D j * (nth j w 0 - nth j u 0)) (seq 0 (length u)))) <= e * distance u w)%Qc.
(** [G] lists the derivatives at [u] of [f] with respect to the coordinates [x]:
    f(w) is f(u) + G (x(w) - x(u)) up to an error that is small against x(w) - x(u). *)
Definition gradient_in (x : nat -> list Qc -> Qc) (f : list Qc -> Qc) (u : list Qc) (G : nat -> Qc) : Prop :=
  forall e, (0 < e)%Qc -> exists r, (0 < r)%Qc /\ forall w, near r u w ->
    (qabs (f w - f u - qsum (map (fun i => G i * (x i w - x i u)) (seq 0 (length u))))
     <= e * qsum (map (fun i => qabs (x i w - x i u)) (seq 0 (length u))))%Qc.

(** Basis function [a] of a spline: its value with 1 as control point [a] and 0 as all
    others. *)
Definition spline_basis (s : spline) (a : nat) (u : list Qc) : Qc :=
  sp_value (Spl (sp_axes s) (map (fun b => [if b =? a then 1%Qc else 0%Qc]) (seq 0 (length (sp_cps s)))) (sp_weights s)) u 0.
Definition coordinate (s : spline) (i : nat) (u : list Qc) : Qc := sp_value s u i.

(** [b] is the inverse of the n x n matrix [a]. *)
Definition inverse (n : nat) (a b : list (list Qc)) : Prop :=
  forall i j, i < n -> j < n ->
    qsum (map (fun k => entry a i k * entry b k j)%Qc (seq 0 n)) = (if i =? j then 1 else 0)%Qc /\
    qsum (map (fun k => entry b i k * entry a k j)%Qc (seq 0 n)) = (if i =? j then 1 else 0)%Qc.

(** Orders of a first and of a second derivative. *)
Definition order1 (n i : nat) : list nat := map (fun k => if k =? i then 1 else 0) (seq 0 n).
Definition order2 (n i j : nat) : list nat :=
  map (fun k => (if k =? i then 1 else 0) + (if k =? j then 1 else 0)) (seq 0 n).

(** What is asked of support and basis_derivative of a spline [s] at [u]: around [u] the
    support is the same and the functions outside of it vanish; the k-th entries are the
    derivatives of the k-th function of the support. *)
Definition basis_right (support : list Qc -> list nat) (basis : list nat -> list Qc -> list Qc)
    (s : spline) (u : list Qc) : Prop :=
  let n := length u in
  NoDup (support u) /\ (forall a, In a (support u) -> a < length (sp_cps s)) /\
  (exists r, (0 < r)%Qc /\ forall w, near r u w -> support w = support u /\
     (forall a, a < length (sp_cps s) -> ~ In a (support u) -> spline_basis s a w = 0%Qc) /\
     forall k, k < length (support u) ->
       total (spline_basis s (nth k (support u) 0)) w (fun i => nth k (basis (order1 n i) w) 0%Qc)) /\
  forall k i, k < length (support u) -> i < n ->
    total (fun w => nth k (basis (order1 n i) w) 0%Qc) u (fun j => nth k (basis (order2 n i j) u) 0%Qc).

(** What is asked of jacobian and derivative of a geometry at [u]. *)
Definition geometry_right (jacobian : list Qc -> list (list Qc)) (derivative : list nat -> list Qc -> list Qc)
    (s : spline) (u : list Qc) : Prop :=
  let n := length u in
  length (jacobian u) = n /\
  (exists r, (0 < r)%Qc /\ forall w, near r u w -> forall d, d < n -> total (coordinate s d) w (entry (jacobian w) d)) /\
  forall d i, d < n -> i < n ->
    total (fun w => entry (jacobian w) d i) u (fun j => nth d (derivative (order2 n i j) u) 0%Qc).

(** What is asked of numpy.linalg.inv for n x n matrices. *)
Definition inverting (n : nat) (inv : list (list Qc) -> option (list (list Qc))) : Prop :=
  forall a, length a = n -> (exists b, inverse n a b) -> exists b, inv a = Some b /\ inverse n a b.

(** [H] lists the derivatives of the i-th derivative of [f], all with respect to [x]: they
    are those of any function that is the i-th derivative around [u]. *)
Definition second_in (x : nat -> list Qc -> Qc) (f : list Qc -> Qc) (u : list Qc) (i : nat) (H : nat -> Qc) : Prop :=
  forall g : nat -> list Qc -> Qc,
    (exists r, (0 < r)%Qc /\ forall w, near r u w -> gradient_in x f w (fun k => g k w)) ->
    gradient_in x (g i) u H /\ forall H', gradient_in x (g i) u H' -> forall j, j < length u -> H' j = H j.
Definition trace (n : nat) (h : nat -> nat -> Qc) : Qc := qsum (map (fun i => h i i) (seq 0 n)).
(** [G] is the gradient, and the only one. *)
Definition the_gradient (x : nat -> list Qc -> Qc) (f : list Qc -> Qc) (u : list Qc) (G : nat -> Qc) : Prop :=
  gradient_in x f u G /\ forall G', gradient_in x f u G' -> forall i, i < length u -> G' i = G i.
