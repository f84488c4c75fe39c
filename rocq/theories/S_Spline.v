(** Specification of spline values: Cox-de Boor basis functions, tensor
    product evaluation, Bernstein polynomials.  This is the mathematical
    meaning of the objects the code manipulates; nothing here is taken from the
    implementation. *)
From Coq Require Import List Arith QArith Qcanon.
From Verif Require Import BaseQc S_Grid.
Import ListNotations.
Local Open Scope Qc_scope.

(** A knot vector as a function of the index.  Indices past the end read the
    last knot; the basis functions of a spline never use them. *)
Definition kn (kv : list Qc) (i : nat) : Qc := nth i kv (last kv 0).

(** Cox-de Boor recursion for the polynomial piece living on the knot span
    number [s], i.e. [U s, U (s+1)].  Division by zero gives zero. *)
Fixpoint basis (U : nat -> Qc) (s p i : nat) (u : Qc) : Qc :=
  match p with
  | O => if Nat.eqb i s then 1 else 0
  | S q => (u - U i) / (U (i + S q)%nat - U i) * basis U s q i u
           + (U (i + q + 2)%nat - u) / (U (i + q + 2)%nat - U (i + 1)%nat)
             * basis U s q (i + 1) u
  end.

(** The knot span used at parameter u: the last non-empty span among
    p .. n-1 that starts at or before u (so the upper end of the domain belongs
    to the last span). *)
Definition find_span (kv : list Qc) (p n : nat) (u : Qc) : nat :=
  last (filter (fun s => qleb (kn kv s) u && qltb (kn kv s) (kn kv (S s)))
               (seq p (n - p))) p.

(** Knot vectors: p+1+n non-decreasing knots whose domain [U p, U n] is not empty. *)
Definition non_decreasing (kv : list Qc) : Prop :=
  forall i j, (i <= j)%nat -> (j < length kv)%nat -> nth i kv 0 <= nth j kv 0.
Definition knot_vector (p n : nat) (kv : list Qc) : Prop :=
  length kv = (n + p + 1)%nat /\ non_decreasing kv /\ kn kv p < kn kv n.
Definition in_domain (p n : nat) (kv : list Qc) (u : Qc) : Prop :=
  kn kv p <= u /\ u <= kn kv n.

(** Value of the i-th basis function of a knot vector at u. *)
Definition bspline_basis (kv : list Qc) (p n : nat) (u : Qc) (i : nat) : Qc :=
  basis (kn kv) (find_span kv p n u) p i u.

(** Sum over a tensor product: [ws] lists per axis the number of functions and
    their values, [c] the coefficients by multi index. *)
Fixpoint tensor (ws : list (nat * (nat -> Qc))) (c : list nat -> Qc) : Qc :=
  match ws with
  | [] => c []
  | (n, w) :: ws =>
      qsum (map (fun i => w i * tensor ws (fun ix => c (i :: ix))) (seq 0 n))
  end.

(** A polynomial spline: per axis (degree, knot vector), and the list of
    control points (each a list of coordinates), first axis fastest. *)
Notation axis := (nat * list Qc)%type.
Record bspline := BSpline { bs_axes : list axis; bs_cps : list (list Qc) }.

(** Number of basis functions of an axis. *)
Definition n_basis (a : axis) : nat := (length (snd a) - fst a - 1)%nat.
Definition bs_res (s : bspline) : list nat := map n_basis (bs_axes s).

(** Basis functions of an axis at u. *)
Definition axis_basis (a : axis) (u : Qc) : nat * (nat -> Qc) :=
  (n_basis a, bspline_basis (snd a) (fst a) (n_basis a) u).

Definition axes_basis (axes : list axis) (us : list Qc) : list (nat * (nat -> Qc)) :=
  map (fun au => axis_basis (fst au) (snd au)) (combine axes us).

(** Coordinate [d] of the control point with multi index [ix]. *)
Definition net (res : list nat) (cps : list (list Qc)) (d : nat) (ix : list nat) : Qc :=
  nth d (nth (flat_id res ix) cps []) 0.

(** Coordinate [d] of the value at parameter [us]. *)
Definition bs_value (s : bspline) (us : list Qc) (d : nat) : Qc :=
  tensor (axes_basis (bs_axes s) us) (net (bs_res s) (bs_cps s) d).

(** Well-formed splines and parameters inside the domain. *)
Definition axis_wf (a : axis) : Prop := knot_vector (fst a) (n_basis a) (snd a).
Definition bs_wf (s : bspline) : Prop :=
  Forall axis_wf (bs_axes s) /\
  length (bs_cps s) = fold_right Nat.mul 1%nat (bs_res s).
Definition bs_in_domain (s : bspline) (us : list Qc) : Prop :=
  Forall2 (fun a u => in_domain (fst a) (n_basis a) (snd a) u) (bs_axes s) us.

(** Bernstein polynomials. *)
Fixpoint binom (n k : nat) : nat :=
  match n, k with
  | _, O => 1
  | O, S _ => 0
  | S n, S k => binom n k + binom n (S k)
  end.
Fixpoint qpow (x : Qc) (n : nat) : Qc :=
  match n with O => 1 | S n => x * qpow x n end.
Definition bernstein (p i : nat) (t : Qc) : Qc :=
  inj (binom p i) * qpow t i * qpow (1 - t) (p - i).
