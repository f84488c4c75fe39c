(** C83: parts of splines. *)
From Coq Require Import List Arith ZArith Lia Bool QArith Qcanon.
From Verif Require Import Base BaseQc S_Spline S_Value M_Core S_Core M_Files S_Files M_Numpy M_Grid M_Extract P_Extract M_Bezier S_Bezier M_Create S_Create S_SubSpline M_SubSpline P_SubRounds P_SubCut P_SubFinal P_SubWitness P_SubExample P_SubSpline W_SubSpline.
Import ListNotations.
Local Open Scope list_scope.
Local Open Scope nat_scope.

(** C83, splines with knot vectors of any number of axes and any degrees from 1 on, rational or
    not: the part between two values has the same knots between them, is clamped at them, and has
    the values of the spline; at its end, the spline must not jump there. *)
Theorem C83_interval : forall limit dim tol ins s k p kv x0 x1,
  (0 < tol)%Qc -> raises_multiplicity tol ins -> sound limit dim s -> nth_error (sp_axes s) k = Some (KnotAxis p kv) ->
  cuttable tol (KnotAxis p kv) x0 -> cuttable tol (KnotAxis p kv) x1 -> (x0 + tol <= x1)%Qc ->
  exists r K, sub_spline limit tol ins s k [x0; x1] = Some r /\ sound limit dim r /\ (sp_weights r = None <-> sp_weights s = None) /\
    sp_axes r = firstn k (sp_axes s) ++ KnotAxis p K :: skipn (S k) (sp_axes s) /\
    (forall y, In y K -> In y kv \/ y = x0 \/ y = x1) /\
    ax_clamped (KnotAxis p K) /\ ax_lower (KnotAxis p K) = x0 /\ ax_upper (KnotAxis p K) = x1 /\
    forall us d, sp_domain r us -> d < dim -> (nth k us 0 < x1)%Qc \/ continuous_at (KnotAxis p kv) x1 ->
      sp_value r us d = sp_value s us d.
Proof. exact C83_interval_holds. Qed.
Print Assumptions C83_interval.

(** C83, Bezier splines: the part is a Bezier spline of the same degrees over the unit interval. *)
Theorem C83_bezier : forall limit dim tol ins s k p x0 x1,
  (0 < tol)%Qc -> raises_multiplicity tol ins -> sound limit dim s -> nth_error (sp_axes s) k = Some (BezierAxis p) ->
  cuttable tol (BezierAxis p) x0 -> cuttable tol (BezierAxis p) x1 -> (x0 + tol <= x1)%Qc ->
  exists r, sub_spline limit tol ins s k [x0; x1] = Some r /\ sound limit dim r /\ (sp_weights r = None <-> sp_weights s = None) /\
    sp_axes r = sp_axes s /\
    forall us d, sp_domain r us -> d < dim -> sp_value r us d = sp_value s (S_Bezier.rescaled k x0 x1 us) d.
Proof. exact C83_bezier_holds. Qed.
Print Assumptions C83_bezier.

(** C83, one value, all families, two or more axes: the spline with this axis fixed, one axis less. *)
Theorem C83_slice : forall limit dim tol ins s k a x,
  (0 < tol)%Qc -> raises_multiplicity tol ins -> sound limit dim s -> 2 <= length (sp_axes s) ->
  nth_error (sp_axes s) k = Some a -> cuttable tol a x ->
  exists r, sub_spline limit tol ins s k [x] = Some r /\ sound limit dim r /\ (sp_weights r = None <-> sp_weights s = None) /\
    sp_axes r = firstn k (sp_axes s) ++ skipn (S k) (sp_axes s) /\
    forall us d, sp_domain r us -> d < dim -> sp_value r us d = sp_value s (firstn k us ++ x :: skipn k us) d.
Proof. exact C83_slice_holds. Qed.
Print Assumptions C83_slice.

(** Values outside the knots are refused. *)
Theorem C83_outside : forall limit tol ins s k a plane x, nth_error (sp_axes s) k = Some a ->
  In x plane -> Forall (fun y => y < x)%Qc (breaks a) \/ Forall (fun y => x < y)%Qc (breaks a) ->
  has_kvs s = match a with BezierAxis _ => false | _ => true end ->
  sub_spline limit tol ins s k plane = None.
Proof. exact C83_outside_holds. Qed.
Print Assumptions C83_outside.

(** The value of a curve is not extracted, but refused. *)
Theorem C83_curve_refuted : exists limit tol ins s a x, raises_multiplicity tol ins /\ sound limit 2 s /\
  sp_axes s = [a] /\ cuttable tol a x /\ sub_spline limit tol ins s 0 [x] = None.
Proof. exact C83_curve_refuted_holds. Qed.
Print Assumptions C83_curve_refuted.

(** Some knot insertion meets the contract. *)
Example C83_oracle : forall tol, raises_multiplicity tol insert_one.
Proof. exact C83_oracle_holds. Qed.

(** A rational surface meets the hypotheses: a knot, values between knots, an end. *)
Example C83_hypotheses :
  sound 10 2 sub_surface /\ nth_error (sp_axes sub_surface) 0 = Some sub_axis /\
  cuttable (qc 1 1000) sub_axis (qc 1 2) /\ cuttable (qc 1 1000) sub_axis 1%Qc /\ cuttable (qc 1 1000) sub_axis (inj 2) /\
  continuous_at sub_axis 1%Qc.
Proof. exact C83_hypotheses_holds. Qed.

(** A Bezier surface meets them, too. *)
Example C83_hypotheses_bezier :
  sound 10 2 sub_bezier /\ nth_error (sp_axes sub_bezier) 1 = Some (BezierAxis 1) /\
  cuttable (qc 1 1000) (BezierAxis 1) (qc 1 4) /\ cuttable (qc 1 1000) (BezierAxis 1) 1%Qc.
Proof. exact C83_hypotheses_bezier_holds. Qed.

(** The middle of a line; its knots and control points. *)
Example C83_line :
  option_map (fun r => (map ax_kv (sp_axes r), sp_cps r)) (sub_spline 10 (qc 1 1000) insert_one sub_line 0 [qc 1 2; 1%Qc]) =
  Some ([[qc 1 2; qc 1 2; 1; 1]%Qc], [[qc 1 2; 1]; [1; inj 2]]%Qc).
Proof. exact C83_line_holds. Qed.