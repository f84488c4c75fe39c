(** Property theorems C68, C69: the volume is exact; its sign. *)
From Coq Require Import List Arith ZArith Lia Bool QArith Qcanon Sorted Permutation.
From Verif Require Import Base BaseQc S_Grid S_Spline P_Spline S_Value P_Value S_Knots S_Pieces S_Deriv P_Deriv M_Core M_Integrate S_Integrate P_View P_IntWitness P_Integrate S_Exact P_Poly P_ExactVol P_Exact W_Exact.
Import ListNotations.
Local Open Scope list_scope.
Local Open Scope nat_scope.

(** C68: for a polynomial spline whose image has as many dimensions as its domain
    the volume is the sum of the integrals of the determinant of the derivatives
    over all elements. *)
Theorem C68_exact :
  forall O eps s orders os knots J, gaussian (g_leggauss O) -> exact_rule (g_leggauss O) -> rooting (g_sqrt O) -> (0 < eps)%Qc ->
  sp_wf s -> sp_weights s = None -> sp_axes s <> [] -> dim_of (sp_cps s) = length (sp_axes s) ->
  Forall2 axis_knots (sp_axes s) knots -> Forall (apart eps) knots ->
  bezier_axes s \/ knotted s /\ bezier_refinement s (g_required O s) knots ->
  orders_of s orders os -> enough_orders s os -> derivatives s J ->
  exists vs, volume O eps s orders = Some (qsum vs) /\
  Forall2 (fun e v => element_integral e (fun u => det (length (sp_axes s)) (J u)) v) (elements knots) vs.
Proof. exact C68_exact_holds. Qed.
Print Assumptions C68_exact.

(** C68: the default orders suffice. *)
Theorem C68_default :
  forall s os, sp_weights s = None -> orders_of s None os -> enough_orders s os.
Proof. exact C68_default_holds. Qed.
Print Assumptions C68_default.

(** C68: the integral over an element is determined by the values inside. *)
Theorem C68_unique :
  forall knots e F v w, Forall (StronglySorted Qclt) knots -> In e (elements knots) ->
  element_integral e F v -> element_integral e F w -> v = w.
Proof. exact C68_unique_holds. Qed.
Print Assumptions C68_unique.

(** C68: the determinant is a polynomial on each element, of degree
    para_dim * degree - 1 along each axis. *)
Theorem C68_degree :
  forall s knots J e, sp_wf s -> sp_weights s = None -> dim_of (sp_cps s) = length (sp_axes s) ->
  Forall2 axis_knots (sp_axes s) knots -> derivatives s J -> In e (elements knots) ->
  exists P, spoly (map (fun a => length (sp_axes s) * ax_degree a - 1) (sp_axes s)) P /\
    forall u, within e u -> det (length (sp_axes s)) (J u) = P u.
Proof. exact C68_degree_holds. Qed.
Print Assumptions C68_degree.

(** C68: the volume depends on the geometry only: two splines with the same domain
    and values have the same volume, whatever their degrees, knots and orders. *)
Theorem C68_representation :
  forall O O' eps eps' s s' orders orders' os os' knots knots',
  gaussian (g_leggauss O) -> exact_rule (g_leggauss O) -> rooting (g_sqrt O) -> (0 < eps)%Qc ->
  gaussian (g_leggauss O') -> exact_rule (g_leggauss O') -> rooting (g_sqrt O') -> (0 < eps')%Qc ->
  sp_wf s -> sp_weights s = None -> sp_axes s <> [] -> dim_of (sp_cps s) = length (sp_axes s) ->
  Forall2 axis_knots (sp_axes s) knots -> Forall (apart eps) knots -> bezier_axes s \/ knotted s /\ bezier_refinement s (g_required O s) knots ->
  orders_of s orders os -> enough_orders s os ->
  sp_wf s' -> sp_weights s' = None ->
  Forall2 axis_knots (sp_axes s') knots' -> Forall (apart eps') knots' -> bezier_axes s' \/ knotted s' /\ bezier_refinement s' (g_required O' s') knots' ->
  orders_of s' orders' os' -> enough_orders s' os' ->
  same_map s s' -> exists v, volume O eps s orders = Some v /\ volume O' eps' s' orders' = Some v.
Proof. exact C68_representation_holds. Qed.
Print Assumptions C68_representation.


(** Splines with the hypotheses above: the length of the parabola's image, computed
    from both forms, and the area of the trapezoid. *)
Example C68_example :
  gaussian (g_leggauss exact_example) /\ exact_rule (g_leggauss exact_example) /\ rooting (g_sqrt exact_example) /\
  (sp_wf bow_one /\ sp_wf bow_two /\ same_map bow_one bow_two /\ bezier_axes bow_one /\ knotted bow_two /\
   Forall2 axis_knots (sp_axes bow_two) [[0; qc 1 2; 1]]%Qc /\ apart (qc 1 2) [0; qc 1 2; 1]%Qc /\
   bezier_refinement bow_two (g_required exact_example bow_two) [[0; qc 1 2; 1]]%Qc /\
   orders_of bow_two None [2] /\ enough_orders bow_two [2] /\
   volume exact_example (qc 1 2) bow_one None = Some 1%Qc /\ volume exact_example (qc 1 2) bow_two None = Some 1%Qc) /\
  (sp_wf trapezoid /\ orders_of trapezoid None [2; 2] /\ enough_orders trapezoid [1; 1] /\ volume exact_example (qc 1 2) trapezoid None = Some (qc 3 2)).
Proof. exact C68_example_holds. Qed.

(** C69, in part: the volume is not negative if the measure is not negative inside
    the elements.  The property asks for it for all splines. *)
Theorem C69_nonnegative_partial :
  forall O eps s orders os knots J, gaussian (g_leggauss O) -> positive_rule (g_leggauss O) -> rooting (g_sqrt O) -> (0 < eps)%Qc ->
  sp_wf s -> positive s -> sp_axes s <> [] -> length (sp_axes s) <= dim_of (sp_cps s) ->
  Forall2 axis_knots (sp_axes s) knots -> Forall (apart eps) knots ->
  bezier_axes s \/ knotted s /\ bezier_refinement s (g_required O s) knots ->
  derivatives s J -> orders_of s orders os ->
  (forall u, Forall2 ax_inside (sp_axes s) u -> (0 <= measure (g_sqrt O) (length (sp_axes s)) (dim_of (sp_cps s)) (J u))%Qc) ->
  exists v, volume O eps s orders = Some v /\ (0 <= v)%Qc.
Proof. exact C69_nonnegative_partial_holds. Qed.
Print Assumptions C69_nonnegative_partial.

(** C69: with more dimensions than parameters the volume is never negative. *)
Theorem C69_embedded :
  forall O eps s orders os knots, gaussian (g_leggauss O) -> positive_rule (g_leggauss O) -> rooting (g_sqrt O) -> (forall x, 0 <= g_sqrt O x)%Qc -> (0 < eps)%Qc ->
  sp_wf s -> positive s -> sp_axes s <> [] -> length (sp_axes s) < dim_of (sp_cps s) ->
  Forall2 axis_knots (sp_axes s) knots -> Forall (apart eps) knots ->
  bezier_axes s \/ knotted s /\ bezier_refinement s (g_required O s) knots ->
  orders_of s orders os ->
  exists v, volume O eps s orders = Some v /\ (0 <= v)%Qc.
Proof. exact C69_embedded_holds. Qed.
Print Assumptions C69_embedded.

(** C69, refuted: the same square, with its first axis reversed, has volume -1. *)
Theorem C69_orientation_refuted :
  forall O eps orders os, gaussian (g_leggauss O) -> rooting (g_sqrt O) -> (0 < eps)%Qc -> (eps < 1)%Qc -> orders_of square_one orders os ->
  sp_wf square_one /\ sp_wf square_turned /\
  (forall u v d, sp_domain square_one [u; v] -> sp_domain square_turned [1 - u; v]%Qc /\ sp_value square_turned [1 - u; v]%Qc d = sp_value square_one [u; v] d) /\
  volume O eps square_one orders = Some 1%Qc /\ volume O eps square_turned orders = Some (- (1))%Qc.
Proof. exact C69_orientation_refuted_holds. Qed.
Print Assumptions C69_orientation_refuted.

(** Splines with the hypotheses above: the unit square in the plane and in space. *)
Example C69_example :
  gaussian (g_leggauss int_example) /\ positive_rule (g_leggauss int_example) /\ rooting (g_sqrt int_example) /\ (forall x, 0 <= g_sqrt int_example x)%Qc /\
  Forall2 axis_knots (sp_axes square_one) [[0; 1]; [0; 1]]%Qc /\ apart (qc 1 2) [0; 1]%Qc /\ bezier_axes square_one /\ orders_of square_one None [2; 2] /\
  derivatives square_one (fun _ d j => if d =? j then 1 else 0)%Qc /\ (0 <= measure (g_sqrt int_example) 2 2 (fun d j => if d =? j then 1 else 0))%Qc /\
  sp_wf square_raised /\ bezier_axes square_raised /\ length (sp_axes square_raised) < dim_of (sp_cps square_raised) /\ orders_of square_raised None [2; 2] /\
  volume int_example (qc 1 2) square_raised None = Some 1%Qc.
Proof. exact C69_example_holds. Qed.