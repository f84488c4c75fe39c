(** Specification of splines that show basis functions. *)
From Coq Require Import List Arith ZArith QArith Qcanon.
From Verif Require Import Base BaseQc S_Spline S_Value M_Core S_Core S_Files S_Create S_SubSpline S_Mapper.
Import ListNotations.
Local Open Scope list_scope.
Local Open Scope nat_scope.

(** One polynomial piece: Bezier, or the two ends p + 1 times and no knot between. *)
Definition one_span (a : paxis) : Prop :=
  match a with
  | BezierAxis _ => True
  | KnotAxis p kv => (ax_lower a < ax_upper a)%Qc /\ kv = repeat (ax_lower a) (p + 1) ++ repeat (ax_upper a) (p + 1)
  end.
Definition elevated_axis (m : nat) (a : paxis) : paxis :=
  match a with
  | BezierAxis p => BezierAxis (p + m)
  | KnotAxis p _ => KnotAxis (p + m) (repeat (ax_lower a) (p + m + 1) ++ repeat (ax_upper a) (p + m + 1))
  end.
(** Degree elevation of an axis with one piece: the degree rises, the values of the spline stay. *)
Definition elevates_spans (elev : spline -> nat -> nat -> spline) : Prop :=
  forall limit dim s k a m, sound limit dim s -> sp_weights s = None -> nth_error (sp_axes s) k = Some a -> one_span a ->
    sp_axes (elev s k m) = firstn k (sp_axes s) ++ elevated_axis m a :: skipn (S k) (sp_axes s) /\
    sound limit dim (elev s k m) /\ sp_weights (elev s k m) = None /\
    forall us d, sp_domain s us -> d < dim -> sp_value (elev s k m) us d = sp_value s us d.

(** Axes whose parametric view is exact: clamped ends, inner knots well apart and at most p times. *)
Definition viewable (tol : Qc) (a : paxis) : Prop :=
  1 <= ax_degree a /\
  match a with
  | BezierAxis _ => True
  | KnotAxis p kv => ax_clamped a /\ (forall x, In x kv -> clear_of tol kv x) /\
                     (forall x, (ax_lower a < x)%Qc -> (x < ax_upper a)%Qc -> times x kv <= p)
  end.

(** Row [i] of an array of [n] rows, counted from the end if negative. *)
Definition row_of (n : nat) (i : Z) (r : nat) : Prop := r < n /\ (i = Z.of_nat r \/ i = Z.of_nat r - Z.of_nat n)%Z.
Definition chosen (s : spline) (ids : option (list Z)) : list Z :=
  match ids with Some l => l | None => map Z.of_nat (seq 0 (length (sp_cps s))) end.
(** [b] shows basis function [i] of [s] as its last coordinate, above the points [place us]. *)
Definition shows (s : spline) (n : nat) (place : list Qc -> nat -> Qc) (i : Z) (b : spline) : Prop :=
  exists r, row_of (length (sp_cps s)) i r /\ sp_axes b = sp_axes s /\ sp_weights b = sp_weights s /\
    Forall (fun p => length p = n + 1) (sp_cps b) /\
    forall us, sp_domain s us -> sp_value b us n = spline_basis s r us /\ forall d, d < n -> sp_value b us d = place us d.
