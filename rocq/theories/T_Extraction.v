(** C78: the matrices of Bezier extraction turn the control points of a spline into those of
    its patches. *)
From Coq Require Import List Arith ZArith QArith Qcanon Sorted Lia.
From Verif Require Import Base BaseQc S_Grid S_Spline S_Value S_Knots S_Pieces S_Extraction M_Knots M_KnotInsert M_Extraction P_Extraction W_Extraction.
Import ListNotations.
Local Open Scope list_scope.
Local Open Scope nat_scope.

(** C78, all clamped knot vectors of continuous splines of all dimensions: one matrix per
    element; rows are convex combinations of the control points; the Bezier spline of the
    combined control points has the value of the spline at all points of the element. *)
Theorem C78_values : forall tol axes grid,
  (0 < tol)%Qc -> axes <> [] ->
  Forall2 (fun a us => open_knots (fst a) (snd a) us /\ apart tol us) axes grid ->
  exists Ms, extraction_matrices tol axes = Some Ms /\
  length Ms = fold_right Nat.mul 1 (element_counts grid) /\
  forall c, below (element_counts grid) c ->
  exists M, nth_error Ms (flat_id (element_counts grid) c) = Some M /\
    convex_matrix (fold_right Nat.mul 1 (map (fun a => fst a + 1) axes))
                  (fold_right Nat.mul 1 (map n_basis axes)) M /\
    forall cps dim ts us d, length cps = fold_right Nat.mul 1 (map n_basis axes) ->
      element_parameter grid c ts us -> d < dim ->
      sp_value (bezier_of axes (combined M dim cps) None) ts d = sp_value (bspline_of axes cps None) us d.
Proof. exact C78_values_holds. Qed.
Print Assumptions C78_values.

(** C78, rational splines: weights are combined by the same matrix, control points in
    homogeneous coordinates (tests/test_bezier_extraction.py 55-60). *)
Theorem C78_rational : forall tol axes grid,
  (0 < tol)%Qc -> axes <> [] ->
  Forall2 (fun a us => open_knots (fst a) (snd a) us /\ apart tol us) axes grid ->
  exists Ms, extraction_matrices tol axes = Some Ms /\
  forall c, below (element_counts grid) c ->
  exists M, nth_error Ms (flat_id (element_counts grid) c) = Some M /\
    forall cps ws, length cps = fold_right Nat.mul 1 (map n_basis axes) ->
      length ws = fold_right Nat.mul 1 (map n_basis axes) -> Forall (fun w => 0 < w)%Qc ws ->
      Forall (fun w => 0 < w)%Qc (weights_of M ws) /\
      forall dim ts us d, element_parameter grid c ts us -> d < dim ->
      sp_value (bezier_of axes (projected (weights_of M ws) (combined M dim (weighted ws cps)))
                          (Some (weights_of M ws))) ts d
      = sp_value (bspline_of axes cps (Some ws)) us d.
Proof. exact C78_rational_holds. Qed.
Print Assumptions C78_rational.

(** The knots of a surface of degrees 2 and 1 meet the hypotheses. *)
Example C78_hypotheses :
  Forall2 (fun a us => open_knots (fst a) (snd a) us /\ apart (qc 1 1000) us)
    [(2, map inj [0; 0; 0; 1; 3; 3; 3]); (1, map inj [0; 0; 2; 2])] [map inj [0; 1; 3]; map inj [0; 2]].
Proof. exact C78_hypotheses_holds. Qed.

(** Two elements, two matrices of 6 rows and 8 columns. *)
Example C78_surface : exists M0 M1,
  extraction_matrices (qc 1 1000) [(2, map inj [0; 0; 0; 1; 3; 3; 3]); (1, map inj [0; 0; 2; 2])] = Some [M0; M1] /\
  length M0 = 6 /\ nth 2 M0 [] = [0; qc 2 3; qc 1 3; 0; 0; 0; 0; 0]%Qc.
Proof. exact C78_surface_holds. Qed.

(** The matrix of the first element of a curve of degree 2 applied to points of the plane. *)
Example C78_points : exists M0 M1,
  extraction_matrices (qc 1 1000) [(2, map inj [0; 0; 0; 1; 2; 2; 2])] = Some [M0; M1] /\
  combined M0 2 [[0; 0]; [0; 1]; [1; 1]; [1; 0]]%Qc = [[0; 0]; [0; 1]; [qc 1 2; 1]]%Qc.
Proof. exact C78_points_holds. Qed.

(** C78 refuted for knot vectors that are not clamped: valid knots of a curve of degree 1,
    but return_kv has place for 5 knots and the loop writes more. *)
Theorem C78_unclamped_refuted : exists p kv n,
  knot_vector p n kv /\ 1 <= p /\ StronglySorted Qclt kv /\ extraction_matrices (qc 1 1000) [(p, kv)] = None.
Proof. exact C78_unclamped_refuted_holds. Qed.
Print Assumptions C78_unclamped_refuted.

(** C78 refuted for degree 0: return_kv has place for 2 knots, all knots of the spline are
    written. *)
Theorem C78_degree_zero_refuted : exists kv n,
  knot_vector 0 n kv /\ extraction_matrices (qc 1 1000) [(0, kv)] = None.
Proof. exact C78_degree_zero_refuted_holds. Qed.
Print Assumptions C78_degree_zero_refuted.
