(** Property theorems C70, C71: splines for Jacobian determinants. *)
From Coq Require Import List Arith ZArith Lia Bool QArith Qcanon Sorted Permutation.
From Verif Require Import Base BaseQc W_KnotInsert S_Grid S_Spline P_Spline S_Value P_Value S_Knots S_Deriv P_Deriv S_Integrate P_Integrate S_Exact P_Exact P_ExactVol S_Solve M_Solve P_Solve M_Grid M_Core M_Knots S_Determinant M_Determinant P_Determinant W_Determinant.
Import ListNotations.
Local Open Scope list_scope.
Local Open Scope nat_scope.

(** C70, in part: the result is the determinant of the derivatives, everywhere on
    the domain, for clamped axes with continuous functions when the determinant
    has at least degree one along each axis.  The property asks for it for all
    polynomial splines. *)
Theorem C70_exact_partial :
  forall solve limit eps tol s knots, linear_solver solve -> sp_wf s -> equal_weights s -> sp_axes s <> [] ->
  length (sp_axes s) <= limit -> (0 < eps)%Qc -> (0 < tol)%Qc ->
  dim_of (sp_cps s) = length (sp_axes s) -> one_kind (sp_axes s) ->
  Forall2 (sampled_axis (length (sp_axes s)) eps tol) (sp_axes s) knots ->
  exists s', determinant_spline solve limit eps tol s = Determinant s' /\ sp_wf s' /\ sp_weights s' = None /\
    Forall (fun p => length p = 1) (sp_cps s') /\
    Forall2 (fun a a' => ax_degree a' = length (sp_axes s) * ax_degree a - 1 /\
                         ax_lower a' = ax_lower a /\ ax_upper a' = ax_upper a) (sp_axes s) (sp_axes s') /\
    forall u, sp_domain s u -> sp_value s' u 0 = jacobian_determinant s u.
Proof. exact C70_exact_partial_holds. Qed.
Print Assumptions C70_exact_partial.

(** C70: inside the elements these are the derivatives in the sense of limits. *)
Theorem C70_derivatives_partial :
  forall solve limit eps tol s knots J, linear_solver solve -> sp_wf s -> equal_weights s -> sp_axes s <> [] ->
  length (sp_axes s) <= limit -> (0 < eps)%Qc -> (0 < tol)%Qc ->
  dim_of (sp_cps s) = length (sp_axes s) -> one_kind (sp_axes s) ->
  Forall2 (sampled_axis (length (sp_axes s)) eps tol) (sp_axes s) knots -> derivatives s J ->
  exists s', determinant_spline solve limit eps tol s = Determinant s' /\
    forall e u, In e (elements knots) -> within e u -> sp_value s' u 0 = det (length (sp_axes s)) (J u).
Proof. exact C70_derivatives_partial_holds. Qed.
Print Assumptions C70_derivatives_partial.

(** C70, refuted: a straight line has a determinant of degree 0; its sample point is
    not a number. *)
Theorem C70_degree_zero_refuted :
  forall solve limit eps tol, 1 <= limit -> (0 < eps)%Qc -> (0 < tol)%Qc ->
  sp_wf straight_line /\ dim_of (sp_cps straight_line) = 1 /\ determinant_spline solve limit eps tol straight_line = DetNaN.
Proof. exact C70_degree_zero_refuted_holds. Qed.
Print Assumptions C70_degree_zero_refuted.

(** C70, refuted: no result for a curve whose knot vector is not clamped. *)
Theorem C70_unclamped_refuted :
  forall solve limit tol, sp_wf unclamped_curve /\ dim_of (sp_cps unclamped_curve) = 1 /\
  determinant_spline solve limit (qc 1 2) tol unclamped_curve = DetRaised.
Proof. exact C70_unclamped_refuted_holds. Qed.
Print Assumptions C70_unclamped_refuted.

(** C70, refuted: the linear system is singular for a curve with a jump. *)
Theorem C70_jump_refuted :
  sp_wf jump_curve /\ dim_of (sp_cps jump_curve) = 1 /\
  exists a b axes, singular a /\ forall solve limit, 1 <= limit ->
    determinant_spline solve limit (qc 1 2) (qc 1 10) jump_curve = Determinant (Spl axes (map (fun x => [x]) (solve a b)) None).
Proof. exact C70_jump_refuted_holds. Qed.
Print Assumptions C70_jump_refuted.

(** Splines with the hypotheses of C70: a bilinear patch and a curve with an inner
    knot; a solver. *)
Example C70_example :
  linear_solver gauss /\
  (sp_wf patch /\ equal_weights patch /\ dim_of (sp_cps patch) = 2 /\ one_kind (sp_axes patch) /\
   Forall2 (sampled_axis 2 (qc 1 100) (qc 1 100)) (sp_axes patch) [[0; 1]; [0; 1]]%Qc /\
   det_points (determinant_spline gauss 3 (qc 1 100) (qc 1 100) patch) = [[inj 2]; [inj 4]; [inj 3]; [inj 5]]) /\
  (sp_wf bend /\ equal_weights bend /\ dim_of (sp_cps bend) = 1 /\ one_kind (sp_axes bend) /\
   Forall2 (sampled_axis 1 (qc 1 100) (qc 1 100)) (sp_axes bend) [[0; qc 1 2; 1]]%Qc /\
   det_points (determinant_spline gauss 3 (qc 1 100) (qc 1 100) bend) = [[inj 4]; [inj 2]; [inj 8]]).
Proof. exact C70_example_holds. Qed.

(** C71: the determinant exceeds every bound that all control points of the result
    exceed; if they are positive, the spline is not tangled. *)
Theorem C71_bound :
  forall solve limit eps tol s knots s' c, linear_solver solve -> sp_wf s -> equal_weights s -> sp_axes s <> [] ->
  length (sp_axes s) <= limit -> (0 < eps)%Qc -> (0 < tol)%Qc ->
  dim_of (sp_cps s) = length (sp_axes s) -> one_kind (sp_axes s) ->
  Forall2 (sampled_axis (length (sp_axes s)) eps tol) (sp_axes s) knots ->
  determinant_spline solve limit eps tol s = Determinant s' ->
  Forall (fun p => (c < nth 0 p 0)%Qc) (sp_cps s') ->
  forall u, sp_domain s u -> (c < jacobian_determinant s u)%Qc.
Proof. exact C71_bound_holds. Qed.
Print Assumptions C71_bound.

(** C71: a control point that is not positive decides nothing: these two curves have
    the control points 1, -1/2, 1 and 1, -2, 1; the first is not tangled, the second
    is. *)
Theorem C71_undecided :
  forall solve limit eps tol, linear_solver solve -> 1 <= limit -> (0 < eps)%Qc -> (eps <= 1)%Qc -> (0 < tol)%Qc ->
  (exists s', determinant_spline solve limit eps tol straight_cubic = Determinant s' /\ (nth 0 (nth 1 (sp_cps s') []) 0 < 0)%Qc /\
     forall u, sp_domain straight_cubic u -> (0 < jacobian_determinant straight_cubic u)%Qc) /\
  (exists s' u, determinant_spline solve limit eps tol folded_cubic = Determinant s' /\ (nth 0 (nth 1 (sp_cps s') []) 0 < 0)%Qc /\
     sp_domain folded_cubic u /\ (jacobian_determinant folded_cubic u < 0)%Qc).
Proof. exact C71_undecided_holds. Qed.
Print Assumptions C71_undecided.
