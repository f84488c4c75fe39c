(** Specification of splines for Jacobian determinants. *)
From Coq Require Import List Arith ZArith QArith Qcanon Sorted.
From Verif Require Import Base BaseQc S_Value S_Knots S_Deriv S_Solve.
Import ListNotations.
Local Open Scope list_scope.
Local Open Scope nat_scope.

(** The determinant of the derivatives. *)
Definition jacobian_determinant (s : spline) (u : list Qc) : Qc :=
  det (length (sp_axes s)) (fun d j => sp_deriv s j u d).

(** A clamped axis with distinct knots [us] and continuous functions: no inner knot
    is repeated more often than the degree. *)
Definition continuous_axis (a : paxis) (us : list Qc) : Prop :=
  StronglySorted Qclt us /\
  match a with
  | BezierAxis _ => us = [0; 1]%Qc
  | KnotAxis p kv => exists m, kv = expand_knots us m /\ length us = length m /\ 2 <= length m /\
      nth 0 m 0 = p + 1 /\ nth (length m - 1) m 0 = p + 1 /\ Forall (fun k => 0 < k) m /\
      forall c, 0 < c -> c < length m - 1 -> nth c m 0 <= p
  end.
(** Neighbouring knots differ by at least [w]. *)
Definition spaced (w : Qc) (us : list Qc) : Prop :=
  forall c, S c < length us -> (w <= nth (S c) us 0 - nth c us 0)%Qc.
Definition one_kind (axes : list paxis) : Prop :=
  (forall a, In a axes -> exists p, a = BezierAxis p) \/ (forall a, In a axes -> exists p kv, a = KnotAxis p kv).

(** The solver solves regular square systems. *)
Definition linear_solver (solve : list (list Qc) -> list Qc -> list Qc) : Prop :=
  forall a b, Forall (fun r => length r = length a) a -> length b = length a -> ~ singular a -> solves a b (solve a b).

(** One axis of a spline of [n] parametric dimensions: its functions are continuous,
    the determinant has at least degree one, and the knots can be told apart. *)
Definition sampled_axis (n : nat) (eps tol : Qc) (a : paxis) (us : list Qc) : Prop :=
  continuous_axis a us /\ 2 <= n * ax_degree a /\ apart eps us /\
  match a with
  | BezierAxis _ => True
  | KnotAxis p _ => spaced (inj (n * p - 1) * tol)%Qc us /\ Forall (fun x => (qc (-1) 1 <= x)%Qc) us
  end.

(** Polynomial, or rational with equal weights. *)
Definition equal_weights (s : spline) : Prop :=
  match sp_weights s with None => True | Some ws => exists w, (0 < w)%Qc /\ Forall (eq w) ws end.
