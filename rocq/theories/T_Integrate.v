(** Property theorems C48, C67: integration over splines. *)
From Coq Require Import List Arith ZArith Lia Bool QArith Qcanon Sorted Permutation.
From Verif Require Import Base BaseQc S_Grid S_Spline P_Spline S_Value P_Value S_Knots S_Pieces S_Deriv P_Deriv M_Core M_Integrate S_Integrate P_View P_IntWitness P_Integrate W_Integrate.
Import ListNotations.
Local Open Scope list_scope.
Local Open Scope nat_scope.

(** Lines from 0 to 1, with one and two elements. *)

(** C67: the volume is the composite quadrature of the measure of the map: the
    sum over all elements between neighbouring knots of the size of the element
    times the Gauss rule, with as many points as the degrees require. *)
Theorem C67_volume :
  forall O eps s orders os knots J, gaussian (g_leggauss O) -> rooting (g_sqrt O) -> (0 < eps)%Qc ->
  sp_wf s -> positive s -> sp_axes s <> [] -> length (sp_axes s) <= dim_of (sp_cps s) ->
  Forall2 axis_knots (sp_axes s) knots -> Forall (apart eps) knots ->
  bezier_axes s \/ knotted s /\ bezier_refinement s (g_required O s) knots ->
  derivatives s J -> orders_of s orders os ->
  volume O eps s orders = Some (composite (product_rule (map (unit_rule (g_leggauss O)) os)) knots
    (fun u => measure (g_sqrt O) (length (sp_axes s)) (dim_of (sp_cps s)) (J u))).
Proof. exact C67_volume_holds. Qed.
Print Assumptions C67_volume.

(** C67: the derivatives exist at all points inside the elements. *)
Theorem C67_derivatives :
  forall s, sp_wf s -> positive s -> exists J, derivatives s J /\
  forall J', derivatives s J' -> forall u d j, Forall2 ax_inside (sp_axes s) u -> d < dim_of (sp_cps s) -> j < length (sp_axes s) -> J' u d j = J u d j.
Proof. exact C67_derivatives_holds. Qed.
Print Assumptions C67_derivatives.

(** C67: the volume of an affine geometry is the measure of its matrix times the
    size of the parametric domain, whatever the knots and the orders. *)
Theorem C67_affine :
  forall O eps s orders os knots b a, gaussian (g_leggauss O) -> rooting (g_sqrt O) -> (0 < eps)%Qc ->
  sp_wf s -> positive s -> sp_axes s <> [] -> length (sp_axes s) <= dim_of (sp_cps s) ->
  Forall2 axis_knots (sp_axes s) knots -> Forall (apart eps) knots ->
  bezier_axes s \/ knotted s /\ bezier_refinement s (g_required O s) knots ->
  affine s b a -> orders_of s orders os ->
  volume O eps s orders = Some (measure (g_sqrt O) (length (sp_axes s)) (dim_of (sp_cps s)) a *
    fold_right Qcmult 1 (map (fun x => ax_upper x - ax_lower x) (sp_axes s)))%Qc.
Proof. exact C67_affine_holds. Qed.
Print Assumptions C67_affine.

(** C48: what is computed for a spline with knot vectors: the sum over all
    elements of the rule of the unit cube, without the sizes of the elements. *)
Theorem C48_computed :
  forall O limit eps s f orders os knots J m, int_contract O -> (0 < eps)%Qc ->
  sp_wf s -> positive s -> sp_axes s <> [] -> length (sp_axes s) <= dim_of (sp_cps s) ->
  Forall2 axis_knots (sp_axes s) knots -> Forall (apart eps) knots ->
  knotted s -> length (sp_axes s) <= limit -> Forall (fun us => qc (-1) 1 <= nth 0 us 0)%Qc knots ->
  derivatives s J -> orders_of s orders os -> (forall u, length (f u) = m) ->
  parametric_function O limit eps s f orders =
  Some (map (fun d => unscaled (product_rule (map (unit_rule (g_leggauss O)) os)) knots
    (fun u => nth d (f u) 0 * measure (g_sqrt O) (length (sp_axes s)) (dim_of (sp_cps s)) (J u))%Qc) (seq 0 m)).
Proof. exact C48_computed_holds. Qed.
Print Assumptions C48_computed.

(** C48, in part: the integral of a spline with knot vectors is right if all
    elements have size one.  The property asks for it for all knots. *)
Theorem C48_unit_partial :
  forall O limit eps s f orders os knots J m, int_contract O -> (0 < eps)%Qc ->
  sp_wf s -> positive s -> sp_axes s <> [] -> length (sp_axes s) <= dim_of (sp_cps s) ->
  Forall2 axis_knots (sp_axes s) knots -> Forall (apart eps) knots ->
  knotted s -> length (sp_axes s) <= limit -> Forall (fun us => qc (-1) 1 <= nth 0 us 0)%Qc knots ->
  derivatives s J -> orders_of s orders os -> (forall u, length (f u) = m) ->
  Forall (fun us => forall x y, In (x, y) (combine us (tl us)) -> (y - x = 1)%Qc) knots ->
  parametric_function O limit eps s f orders =
  Some (map (fun d => composite (product_rule (map (unit_rule (g_leggauss O)) os)) knots
    (fun u => nth d (f u) 0 * measure (g_sqrt O) (length (sp_axes s)) (dim_of (sp_cps s)) (J u))%Qc) (seq 0 m)).
Proof. exact C48_unit_partial_holds. Qed.
Print Assumptions C48_unit_partial.

(** C48: without knot vectors the integral is right. *)
Theorem C48_bezier :
  forall O limit eps s f orders os J m, int_contract O -> (0 < eps)%Qc -> (eps < 1)%Qc ->
  sp_wf s -> positive s -> sp_axes s <> [] -> length (sp_axes s) <= dim_of (sp_cps s) ->
  bezier_axes s -> derivatives s J -> orders_of s orders os -> (forall u, length (f u) = m) ->
  parametric_function O limit eps s f orders =
  Some (map (fun d => composite (product_rule (map (unit_rule (g_leggauss O)) os)) (map (fun _ => [0; 1]%Qc) (sp_axes s))
    (fun u => nth d (f u) 0 * measure (g_sqrt O) (length (sp_axes s)) (dim_of (sp_cps s)) (J u))%Qc) (seq 0 m)).
Proof. exact C48_bezier_holds. Qed.
Print Assumptions C48_bezier.

(** C48: the integral of a constant over an affine geometry, as computed: the
    number of elements takes the place of the size of the domain. *)
Theorem C48_constant :
  forall O limit eps s c orders os knots b a, int_contract O -> (0 < eps)%Qc ->
  sp_wf s -> positive s -> sp_axes s <> [] -> length (sp_axes s) <= dim_of (sp_cps s) ->
  Forall2 axis_knots (sp_axes s) knots -> Forall (apart eps) knots ->
  knotted s -> length (sp_axes s) <= limit -> Forall (fun us => qc (-1) 1 <= nth 0 us 0)%Qc knots ->
  affine s b a -> orders_of s orders os ->
  parametric_function O limit eps s (fun _ => [c]) orders =
  Some [c * measure (g_sqrt O) (length (sp_axes s)) (dim_of (sp_cps s)) a * inj (fold_right Nat.mul 1 (map (fun us => length us - 1) knots))%nat]%Qc.
Proof. exact C48_constant_holds. Qed.
Print Assumptions C48_constant.


(** C48, refuted: a knot inserted into a straight line of length one, 1/2, leaves
    the line as it is but the computed integral of one is two. *)
Theorem C48_refine_refuted :
  forall O limit eps, int_contract O -> (0 < eps)%Qc -> (eps <= qc 1 2)%Qc -> 1 <= limit ->
  sp_wf line_one /\ sp_wf line_two /\
  affine line_one (fun _ => 0%Qc) (fun _ _ => 1%Qc) /\ affine line_two (fun _ => 0%Qc) (fun _ _ => 1%Qc) /\
  (forall us, sp_domain line_one us <-> sp_domain line_two us) /\
  parametric_function O limit eps line_one (fun _ => [1%Qc]) None = Some [1%Qc] /\
  parametric_function O limit eps line_two (fun _ => [1%Qc]) None = Some [inj 2].
Proof. exact C48_refine_refuted_holds. Qed.
Print Assumptions C48_refine_refuted.

(** Splines with the hypotheses above; the volumes of a line with two elements and
    of a square in space. *)
Example C67_example :
  int_contract int_example /\
  (sp_wf line_long /\ positive line_long /\ Forall2 axis_knots (sp_axes line_long) [[0; 1; inj 2]]%Qc /\ apart (qc 1 2) [0; 1; inj 2]%Qc /\
   knotted line_long /\ bezier_refinement line_long (g_required int_example line_long) [[0; 1; inj 2]]%Qc /\ orders_of line_long None [2] /\
   orders_of line_long (Some [3%Z]) [3] /\
   volume int_example (qc 1 2) line_long None = Some (inj 4) /\
   parametric_function int_example 3 (qc 1 2) line_long (fun u => u) None = Some [inj 3]) /\
  (sp_wf flat_patch /\ bezier_axes flat_patch /\ orders_of flat_patch None [2; 2] /\
   volume int_example (qc 1 2) flat_patch None = Some 1%Qc /\
   affine line_two (fun _ => 0%Qc) (fun _ _ => 1%Qc)).
Proof. exact C67_example_holds. Qed.