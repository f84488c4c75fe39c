(** Property theorems C49, C65, C66: fitting curves and surfaces to points. *)
From Coq Require Import List Arith ZArith Lia Bool QArith Qcanon.
From Verif Require Import Base BaseQc S_Grid S_Spline P_Spline S_Value P_Value M_Core S_Core P_Core S_Solve M_Solve P_Solve
  M_Create M_Fit S_Fit P_FitLs P_FitSurf P_FitCurve P_Fit P_FitPlaced W_Fit.
Import ListNotations.
Local Open Scope list_scope.
Local Open Scope nat_scope.

(** C49: the computed knot vector is clamped on [0, 1], non-decreasing, of the
    right length. *)
Theorem C49_knots :
  forall p n u m, p < n -> n <= m -> length u = m -> (m = n -> 0 < p) ->
  non_decreasing u -> Forall (fun x => (0 <= x)%Qc /\ (x <= 1)%Qc) u ->
  exists kv, compute_knot_vector p n u m = Some kv /\ unit_knots p n kv.
Proof. exact C49_knots_holds. Qed.
Print Assumptions C49_knots.

(** C49: the computed parameters go from 0 to 1; they increase if consecutive
    points differ. *)
Theorem C49_parameters :
  forall O centripetal n dim lines, measuring O -> lines <> [] ->
  (forall l, In l lines -> length l = n /\ Forall (fun p => length p = dim) l /\ spread l) ->
  exists u, axis_parameters O centripetal n lines = Some (map Some u) /\ length u = n /\ unit_parameters u /\
    ((forall l, In l lines -> moving l) -> increasing u).
Proof. exact C49_parameters_holds. Qed.
Print Assumptions C49_parameters.

(** C49: a curve fitted with the given degree (and number of control points). *)
Theorem C49_curve :
  forall O limit scipy pts dim p n_cp n centripetal ends s r, measuring O -> 1 <= limit -> 0 < dim ->
  Forall (fun q => length q = dim) pts -> spread pts -> p < n -> n <= length pts -> (n = length pts -> 0 < p) ->
  (n_cp = Some (Z.of_nat n) \/ (n_cp = None /\ n = length pts)) ->
  curve O limit scipy pts (Some (Z.of_nat p)) n_cp None None None centripetal ends = Fitted s r ->
  exists kv, sp_axes s = [KnotAxis p kv] /\ unit_knots p n kv /\ sp_weights s = None.
Proof. exact C49_curve_holds. Qed.
Print Assumptions C49_curve.


Example C49_example :
  measuring exact_oracles /\ spread six_points /\
  axis_parameters exact_oracles false 6 [six_points] = Some (map Some [0; qc 1 6; qc 1 3; qc 2 3; qc 5 6; 1]%Qc) /\
  compute_knot_vector 2 4 [0; qc 1 6; qc 1 3; qc 2 3; qc 5 6; 1]%Qc 6 = Some [0; 0; 0; qc 1 3; 1; 1; 1]%Qc /\
  compute_knot_vector 2 6 [0; qc 1 6; qc 1 3; qc 2 3; qc 5 6; 1]%Qc 6 = Some [0; 0; 0; qc 1 4; qc 1 2; qc 3 4; 1; 1; 1]%Qc.
Proof. exact C49_example_holds. Qed.

(** C49, requested knot vectors: only their number of entries counts. *)
Theorem C49_length_partial :
  forall O limit scipy pts d n_cp kv given queries centripetal ends,
  curve O limit scipy pts (Some d) n_cp (Some kv) given queries centripetal ends =
  curve O limit scipy pts (Some d) (Some (Z.of_nat (length kv) - d - 1)%Z) None given queries centripetal ends.
Proof. exact C49_length_partial_holds. Qed.
Print Assumptions C49_length_partial.

(** A requested knot vector is replaced. *)
Theorem C49_request_refuted :
  exists pts kv s r, unit_knots 2 4 kv /\ moving pts /\
    curve exact_oracles 10 true pts (Some 2%Z) None (Some kv) None None true true = Fitted s r /\
    sp_axes s <> [KnotAxis 2 kv].
Proof. exact C49_request_refuted_holds. Qed.
Print Assumptions C49_request_refuted.

(** Curves of degree 0 through all points are refused. *)
Theorem C49_constant_refuted :
  forall O limit scipy pts dim centripetal ends, measuring O -> Forall (fun q => length q = dim) pts -> spread pts ->
  curve O limit scipy pts (Some 0%Z) None None None None centripetal ends = Refused.
Proof. exact C49_constant_refuted_holds. Qed.
Print Assumptions C49_constant_refuted.
Example C49_constant_example : unit_knots 0 4 [0; qc 1 3; qc 2 3; qc 3 4; 1]%Qc /\ spread four_points.
Proof. exact C49_constant_example_holds. Qed.

(** All points equal: the parameters are not numbers. *)
Theorem C49_still_refuted :
  forall scipy p centripetal ends, curve exact_oracles 10 scipy [[0; 1]; [0; 1]; [0; 1]]%Qc (Some p) None None None None centripetal ends = Undefined.
Proof. exact C49_still_refuted_holds. Qed.
Print Assumptions C49_still_refuted.

(** C65: fitting without interpolated end points, or as many control points as
    points: no spline over the same basis functions is nearer to the points; the
    points are met if their number is the number of control points. *)
Theorem C65_best :
  forall O limit scipy s pts us dim degree n_cp kv centripetal ends, solving O ->
  curve_shape s -> 1 <= length (sp_cps s) -> shaped (length us) dim pts -> determined s us ->
  (ends = false \/ length (sp_cps s) = length pts) ->
  exists s' r,
    curve O limit scipy pts degree n_cp kv (Some s) (Some us) centripetal ends = Fitted s' r /\ same_space s s' /\
    (forall s'', same_space s s'' -> (squared_error dim s' us pts <= squared_error dim s'' us pts)%Qc) /\
    (length (sp_cps s) = length pts -> interpolates dim s' us pts) /\
    r = f_norm O (differences dim s' us pts).
Proof. exact C65_best_holds. Qed.
Print Assumptions C65_best.

(** C65: with interpolated end points. *)
Theorem C65_ends :
  forall O limit scipy s pts us dim degree n_cp kv centripetal, solving O ->
  end_ready s us -> 2 <= length (sp_cps s) -> shaped (length us) dim pts -> determined s us ->
  let meets s := forall d, d < dim ->
    sp_value s [hd 0%Qc us] d = nth d (hd [] pts) 0%Qc /\ sp_value s [last us 0%Qc] d = nth d (last pts []) 0%Qc in
  exists s' r,
    curve O limit scipy pts degree n_cp kv (Some s) (Some us) centripetal true = Fitted s' r /\ same_space s s' /\
    meets s' /\
    (forall s'', same_space s s'' -> meets s'' -> (squared_error dim s' us pts <= squared_error dim s'' us pts)%Qc) /\
    r = f_norm O (differences dim s' us pts).
Proof. exact C65_ends_holds. Qed.
Print Assumptions C65_ends.

(** C65: points of a spline over the same basis functions give this spline. *)
Theorem C65_reproduces :
  forall O limit scipy s pts us dim degree n_cp kv centripetal ends s', solving O -> fit_ready s us ends ->
  shaped (length us) dim pts -> same_space s s' -> shaped (length (sp_cps s)) dim (sp_cps s') -> interpolates dim s' us pts ->
  exists r, curve O limit scipy pts degree n_cp kv (Some s) (Some us) centripetal ends = Fitted s' r.
Proof. exact C65_reproduces_holds. Qed.
Print Assumptions C65_reproduces.

(** C65: curves fitted with the given degree (and number of control points) when
    consecutive points differ. *)
Theorem C65_default :
  forall O limit scipy pts dim p n_cp n centripetal, measuring O -> solving O -> 1 <= limit -> 0 < dim ->
  Forall (fun q => length q = dim) pts -> 2 <= length pts -> moving pts ->
  p < n -> 2 <= n -> n <= length pts -> (n = length pts -> 0 < p) ->
  (n_cp = Some (Z.of_nat n) \/ (n_cp = None /\ n = length pts)) ->
  exists u kv,
    axis_parameters O centripetal (length pts) [pts] = Some (map Some u) /\ unit_parameters u /\ increasing u /\
    compute_knot_vector p n u (length pts) = Some kv /\ unit_knots p n kv /\
    let meets s := forall d, d < dim ->
      sp_value s [0%Qc] d = nth d (hd [] pts) 0%Qc /\ sp_value s [1%Qc] d = nth d (last pts []) 0%Qc in
    exists s r, curve O limit scipy pts (Some (Z.of_nat p)) n_cp None None None centripetal true = Fitted s r /\
      sp_axes s = [KnotAxis p kv] /\ length (sp_cps s) = n /\ sp_weights s = None /\ meets s /\
      (forall s', same_space s s' -> meets s' -> (squared_error dim s u pts <= squared_error dim s' u pts)%Qc) /\
      (n = length pts -> interpolates dim s u pts) /\
      r = f_norm O (differences dim s u pts).
Proof. exact C65_default_holds. Qed.
Print Assumptions C65_default.


Example C65_example :
  solving exact_oracles /\ measuring exact_oracles /\ moving six_points /\ determined six_space six_parameters /\
  end_ready six_space six_parameters /\
  exists s r, curve exact_oracles 10 true six_points (Some 2%Z) (Some 4%Z) None None None false true = Fitted s r /\
    sp_cps s <> [] /\ r <> 0%Qc /\ sp_value s [1%Qc] 0 = qc 4 1.
Proof. exact C65_example_holds. Qed.

(** C65: a repeated point gives a repeated parameter; the system for a curve through
    all points is singular. *)
Theorem C65_repeated_refuted :
  exists axes a b, spread halting /\ Forall (fun q => length q = 2) halting /\ singular a /\
    forall solve lstsq, exists r,
    curve (FitOracles (f_norm exact_oracles) (f_sqrt exact_oracles) solve lstsq) 10 true halting (Some 1%Z) None None None None true true =
    Fitted (Spl axes (solve a b) None) r.
Proof. exact C65_repeated_refuted_holds. Qed.
Print Assumptions C65_repeated_refuted.

(** C66: points on a surface over the same basis functions give its control
    points. *)
Theorem C66_reproduces :
  forall O limit scipy s su sv us vs dim pts degrees n_cps kvs centripetal ends s', solving O ->
  row_of s = Some (su, sv) -> separable s -> fit_ready su us ends -> fit_ready sv vs ends ->
  shaped (length us * length vs) dim pts -> same_space s s' -> shaped (length (sp_cps s)) dim (sp_cps s') ->
  interpolates_grid dim s' us vs pts ->
  surface O limit scipy pts (length us) (length vs) degrees n_cps kvs (Some s) (Some (us, vs)) centripetal ends = Some s'.
Proof. exact C66_reproduces_holds. Qed.
Print Assumptions C66_reproduces.

(** C66: as many control points as points in both directions: the surface takes
    the points as values. *)
Theorem C66_interpolates :
  forall O limit scipy s su sv us vs dim pts degrees n_cps kvs centripetal ends, solving O ->
  row_of s = Some (su, sv) -> separable s -> fit_ready su us ends -> fit_ready sv vs ends ->
  length (sp_cps su) = length us -> length (sp_cps sv) = length vs -> shaped (length us * length vs) dim pts ->
  exists s',
    surface O limit scipy pts (length us) (length vs) degrees n_cps kvs (Some s) (Some (us, vs)) centripetal ends = Some s' /\
    same_space s s' /\ interpolates_grid dim s' us vs pts.
Proof. exact C66_interpolates_holds. Qed.
Print Assumptions C66_interpolates.

(** C66: surfaces fitted with the given degrees when consecutive points differ. *)
Theorem C66_default :
  forall O limit scipy pts dim size0 size1 p q centripetal ends, measuring O -> solving O -> 2 <= limit -> 0 < dim ->
  shaped (size0 * size1) dim pts ->
  (forall l, In l (lines_u size0 size1 pts) -> moving l) -> (forall l, In l (lines_v size0 size1 pts) -> moving l) ->
  0 < p < size0 -> 0 < q < size1 ->
  exists u v kv0 kv1,
    axis_parameters O centripetal size0 (lines_u size0 size1 pts) = Some (map Some u) /\ unit_parameters u /\
    axis_parameters O centripetal size1 (lines_v size0 size1 pts) = Some (map Some v) /\ unit_parameters v /\
    unit_knots p size0 kv0 /\ unit_knots q size1 kv1 /\
    exists s, surface O limit scipy pts size0 size1 (Some (Z.of_nat p), Some (Z.of_nat q)) (None, None) None None None centripetal ends = Some s /\
      sp_axes s = [KnotAxis p kv0; KnotAxis q kv1] /\ sp_weights s = None /\ shaped (size0 * size1) dim (sp_cps s) /\
      interpolates_grid dim s u v pts.
Proof. exact C66_default_holds. Qed.
Print Assumptions C66_default.

(** C66: with fewer control points, points of a surface over the computed knots give
    this surface. *)
Theorem C66_default_reproduces :
  forall O limit scipy pts dim size0 size1 p q n0 n1 centripetal ends, measuring O -> solving O -> 2 <= limit -> 0 < dim ->
  shaped (size0 * size1) dim pts ->
  (forall l, In l (lines_u size0 size1 pts) -> moving l) -> (forall l, In l (lines_v size0 size1 pts) -> moving l) ->
  p < n0 -> 2 <= n0 -> n0 <= size0 -> (n0 = size0 -> 0 < p) -> q < n1 -> 2 <= n1 -> n1 <= size1 -> (n1 = size1 -> 0 < q) ->
  exists u v kv0 kv1,
    axis_parameters O centripetal size0 (lines_u size0 size1 pts) = Some (map Some u) /\ unit_parameters u /\
    axis_parameters O centripetal size1 (lines_v size0 size1 pts) = Some (map Some v) /\ unit_parameters v /\
    unit_knots p n0 kv0 /\ unit_knots q n1 kv1 /\
    forall cps, shaped (n0 * n1) dim cps -> interpolates_grid dim (Spl [KnotAxis p kv0; KnotAxis q kv1] cps None) u v pts ->
      surface O limit scipy pts size0 size1 (Some (Z.of_nat p), Some (Z.of_nat q)) (Some (Z.of_nat n0), Some (Z.of_nat n1)) None None None centripetal ends
        = Some (Spl [KnotAxis p kv0; KnotAxis q kv1] cps None).
Proof. exact C66_default_reproduces_holds. Qed.
Print Assumptions C66_default_reproduces.

(** Grid of 3 x 3 points; bilinear pieces. *)
Example C66_example :
  shaped 9 3 grid_points /\
  (forall l, In l (lines_u 3 3 grid_points) -> moving l) /\ (forall l, In l (lines_v 3 3 grid_points) -> moving l) /\
  exists s, surface exact_oracles 10 true grid_points 3 3 (Some 2%Z, Some 1%Z) (None, None) None None None true true = Some s /\
    map (sp_value s [qc 1 2; qc 1 2]) [0; 1; 2] = [1; 1; qc 3 1]%Qc.
Proof. exact C66_example_holds. Qed.

(** Weights that are not products: the fitted surface misses points although
    there is a surface through all of them. *)
Theorem C66_weights_refuted :
  exists s su sv us vs pts s', row_of s = Some (su, sv) /\ fit_ready su us true /\ fit_ready sv vs true /\
    length (sp_cps su) = length us /\ length (sp_cps sv) = length vs /\ shaped (length us * length vs) 2 pts /\
    Forall (fun w => (0 < w)%Qc) (match sp_weights s with Some w => w | None => [] end) /\
    (exists s'', same_space s s'' /\ interpolates_grid 2 s'' us vs pts) /\
    surface exact_oracles 10 true pts (length us) (length vs) (None, None) (None, None) None (Some s) (Some (us, vs)) true true = Some s' /\
    ~ interpolates_grid 2 s' us vs pts.
Proof. exact C66_weights_refuted_holds. Qed.
Print Assumptions C66_weights_refuted.
