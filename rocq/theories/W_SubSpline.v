(** Witnesses and assembly of the theorems of T_SubSpline. *)
From Coq Require Import List Arith ZArith Lia Bool QArith Qcanon.
From Verif Require Import Base BaseQc S_Spline S_Value M_Core S_Core M_Files S_Files M_Numpy M_Grid M_Extract P_Extract M_Bezier S_Bezier M_Create S_Create S_SubSpline M_SubSpline P_SubRounds P_SubCut P_SubFinal P_SubWitness P_SubExample P_SubSpline.
Import ListNotations.
Local Open Scope list_scope.
Local Open Scope nat_scope.

Lemma C83_interval_holds : forall limit dim tol ins s k p kv x0 x1,
  (0 < tol)%Qc -> raises_multiplicity tol ins -> sound limit dim s -> nth_error (sp_axes s) k = Some (KnotAxis p kv) ->
  cuttable tol (KnotAxis p kv) x0 -> cuttable tol (KnotAxis p kv) x1 -> (x0 + tol <= x1)%Qc ->
  exists r K, sub_spline limit tol ins s k [x0; x1] = Some r /\ sound limit dim r /\ (sp_weights r = None <-> sp_weights s = None) /\
    sp_axes r = firstn k (sp_axes s) ++ KnotAxis p K :: skipn (S k) (sp_axes s) /\
    (forall y, In y K -> In y kv \/ y = x0 \/ y = x1) /\
    ax_clamped (KnotAxis p K) /\ ax_lower (KnotAxis p K) = x0 /\ ax_upper (KnotAxis p K) = x1 /\
    forall us d, sp_domain r us -> d < dim -> (nth k us 0 < x1)%Qc \/ continuous_at (KnotAxis p kv) x1 ->
      sp_value r us d = sp_value s us d.
Proof.
  intros limit dim tol ins s k p kv x0 x1 T RM So En C0 C1 X. apply (interval_knots limit dim tol ins s k (KnotAxis p kv) T RM So En x0 x1 C0 C1 X).
  destruct So as (St & _ & R & _). destruct (kinds limit dim s St R) as (Kd & _). apply nth_error_In in En. rewrite Forall_forall in Kd.
  specialize (Kd _ En). apply Kd.
Qed.

Lemma C83_bezier_holds : forall limit dim tol ins s k p x0 x1,
  (0 < tol)%Qc -> raises_multiplicity tol ins -> sound limit dim s -> nth_error (sp_axes s) k = Some (BezierAxis p) ->
  cuttable tol (BezierAxis p) x0 -> cuttable tol (BezierAxis p) x1 -> (x0 + tol <= x1)%Qc ->
  exists r, sub_spline limit tol ins s k [x0; x1] = Some r /\ sound limit dim r /\ (sp_weights r = None <-> sp_weights s = None) /\
    sp_axes r = sp_axes s /\
    forall us d, sp_domain r us -> d < dim -> sp_value r us d = sp_value s (S_Bezier.rescaled k x0 x1 us) d.
Proof.
  intros limit dim tol ins s k p x0 x1 T RM So En C0 C1 X. apply (interval_bezier limit dim tol ins s k (BezierAxis p) T RM So En x0 x1 C0 C1 X).
  destruct So as (St & _ & R & _). destruct (kinds limit dim s St R) as (Kd & _). apply nth_error_In in En. rewrite Forall_forall in Kd.
  specialize (Kd _ En). apply Kd.
Qed.

Lemma C83_slice_holds : forall limit dim tol ins s k a x,
  (0 < tol)%Qc -> raises_multiplicity tol ins -> sound limit dim s -> 2 <= length (sp_axes s) ->
  nth_error (sp_axes s) k = Some a -> cuttable tol a x ->
  exists r, sub_spline limit tol ins s k [x] = Some r /\ sound limit dim r /\ (sp_weights r = None <-> sp_weights s = None) /\
    sp_axes r = firstn k (sp_axes s) ++ skipn (S k) (sp_axes s) /\
    forall us d, sp_domain r us -> d < dim -> sp_value r us d = sp_value s (firstn k us ++ x :: skipn k us) d.
Proof.
  intros limit dim tol ins s k a x T RM So L En C. exact (slice_any limit dim tol ins s k a T RM So En x C L).
Qed.

Lemma C83_outside_holds : forall limit tol ins s k a plane x, nth_error (sp_axes s) k = Some a ->
  In x plane -> Forall (fun y => y < x)%Qc (breaks a) \/ Forall (fun y => x < y)%Qc (breaks a) ->
  has_kvs s = match a with BezierAxis _ => false | _ => true end ->
  sub_spline limit tol ins s k plane = None.
Proof. exact outside_refused. Qed.

Lemma C83_curve_refuted_holds : exists limit tol ins s a x, raises_multiplicity tol ins /\ sound limit 2 s /\
  sp_axes s = [a] /\ cuttable tol a x /\ sub_spline limit tol ins s 0 [x] = None.
Proof. exact curve_refused. Qed.

Lemma C83_oracle_holds : forall tol, raises_multiplicity tol insert_one.
Proof. exact insert_one_raises. Qed.

Lemma C83_hypotheses_holds :
  sound 10 2 sub_surface /\ nth_error (sp_axes sub_surface) 0 = Some sub_axis /\
  cuttable (qc 1 1000) sub_axis (qc 1 2) /\ cuttable (qc 1 1000) sub_axis 1%Qc /\ cuttable (qc 1 1000) sub_axis (inj 2) /\
  continuous_at sub_axis 1%Qc.
Proof. exact sub_surface_ok. Qed.

Lemma C83_hypotheses_bezier_holds :
  sound 10 2 sub_bezier /\ nth_error (sp_axes sub_bezier) 1 = Some (BezierAxis 1) /\
  cuttable (qc 1 1000) (BezierAxis 1) (qc 1 4) /\ cuttable (qc 1 1000) (BezierAxis 1) 1%Qc.
Proof. exact sub_bezier_ok. Qed.

Lemma C83_line_holds :
  option_map (fun r => (map ax_kv (sp_axes r), sp_cps r)) (sub_spline 10 (qc 1 1000) insert_one sub_line 0 [qc 1 2; 1%Qc]) =
  Some ([[qc 1 2; qc 1 2; 1; 1]%Qc], [[qc 1 2; 1]; [1; inj 2]]%Qc).
Proof. exact sub_line_part. Qed.

