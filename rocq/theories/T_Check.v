(** Property theorems C85, C86: the checks of queries and knot vectors. *)
From Coq Require Import List Arith ZArith Bool QArith Qcanon Lia.
From Verif Require Import Base BaseQc S_Grid S_Spline S_Value M_Core M_Check S_Check W_KnotInsert P_Check W_Check.
Import ListNotations.
Local Open Scope list_scope.
Local Open Scope nat_scope.

(** C85: queries are accepted exactly if each of them lies in the parametric domain. *)
Theorem C85_accepted :
  forall s cols rows, Forall (fun r => length r = cols) rows -> rows <> [] ->
  valid_queries s (Table cols rows) = Valid <-> cols = length (sp_axes s) /\ Forall (sp_domain s) rows.
Proof. exact C85_accepted_holds. Qed.
Print Assumptions C85_accepted.

(** C85: a query reported to be above the bounds is above them in the reported dimension, no
    dimension before has such a query and no query is below the bounds. *)
Theorem C85_above :
  forall s cols rows d i, Forall (fun r => length r = cols) rows -> valid_queries s (Table cols rows) = Above d i ->
  exceeds s rows d i /\ (forall e j, e < d -> ~ exceeds s rows e j) /\ (forall e j, ~ undercuts s rows e j).
Proof. exact C85_above_holds. Qed.
Print Assumptions C85_above.

(** C85, partial: if queries are reported to be below the bounds some query is; for curves it
    is the reported one.  Missing: the reported dimension of surfaces and volumes. *)
Theorem C85_below_partial :
  forall s cols rows d i, Forall (fun r => length r = cols) rows -> valid_queries s (Table cols rows) = Below d i ->
  (exists e j, undercuts s rows e j) /\ (length (sp_axes s) = 1 -> undercuts s rows d i).
Proof. exact C85_below_partial_holds. Qed.
Print Assumptions C85_below_partial.

(** C85: there is a dimension to report whenever a query is refused. *)
Theorem C85_reported :
  forall s cols rows, Forall (fun a => (ax_lower a <= ax_upper a)%Qc) (sp_axes s) ->
  valid_queries s (Table cols rows) <> NoDimension.
Proof. exact C85_reported_holds. Qed.
Print Assumptions C85_reported.

(** C85 refuted: a query of the unit square which is below the bounds in dimension 1 only is
    reported for dimension 0. *)
Theorem C85_below_refuted :
  exists s rows, sp_wf s /\ valid_queries s (Table 2 rows) = Below 0 0 /\
  (forall j, ~ undercuts s rows 0 j) /\ (forall j, ~ exceeds s rows 0 j) /\ undercuts s rows 1 0.
Proof. exact C85_below_refuted_holds. Qed.
Print Assumptions C85_below_refuted.

(** C86: knot vectors are found clamped exactly if both end knots of each axis appear at
    least degree + 1 times. *)
Theorem C86_clamped :
  forall tol s, (0 < tol)%Qc -> sp_wf s -> one_family s -> Forall (ends_clear tol) (sp_axes s) ->
  clamped_knot_vectors tol s = true <-> Forall open_ends (sp_axes s).
Proof. exact C86_clamped_holds. Qed.
Print Assumptions C86_clamped.

(** C86: a spline found clamped takes the control points of the corners of its net at the
    corners of its domain if no end knot appears more than degree + 1 times. *)
Theorem C86_corners :
  forall tol s ups d, (0 < tol)%Qc -> sp_wf s -> one_family s -> Forall (ends_clear tol) (sp_axes s) ->
  Forall ends_not_excess (sp_axes s) -> clamped_knot_vectors tol s = true ->
  length ups = length (sp_axes s) ->
  (forall ws, sp_weights s = Some ws -> nth (flat_id (sp_res s) (corner_index s ups)) ws 0%Qc <> 0%Qc) ->
  sp_value s (corner_at s ups) d = net (sp_res s) (sp_cps s) d (corner_index s ups).
Proof. exact C86_corners_holds. Qed.
Print Assumptions C86_corners.

(** Queries inside, above and below a surface; a clamped and an unclamped knot vector. *)
Example C85_example :
  let s := Spl [KnotAxis 2 [0; 0; 0; qc 1 2; 1; 1; 1]%Qc; KnotAxis 1 [0; 0; inj 2; inj 2]%Qc]
               (map (fun i => [inj i; inj (i * i)]) (seq 0 8)) (Some (map (fun i => inj (i + 1)) (seq 0 8))) in
  sp_wf s /\ one_family s /\ Forall (ends_clear (qc 1 1000)) (sp_axes s) /\ Forall ends_not_excess (sp_axes s) /\
  valid_queries s (Table 2 [[0; inj 2]; [1; 1]]%Qc) = Valid /\
  valid_queries s (Table 2 [[0; 0]; [1; inj 3]; [1; inj 3]]%Qc) = Above 1 1 /\
  valid_queries s (Table 1 [[0]]%Qc) = Mismatch /\
  clamped_knot_vectors (qc 1 1000) s = true /\
  clamped_knot_vectors (qc 1 1000) (Spl [KnotAxis 1 [0; qc 1 2; 1; 1]%Qc] [[0]; [1]]%Qc None) = false.
Proof. exact C85_example_holds. Qed.