(** Property theorems C88: the splines extract.bases makes of basis functions. *)
From Coq Require Import List Arith ZArith QArith Qcanon Lia.
From Verif Require Import Base BaseQc S_Spline S_Value M_Core S_Core S_Files S_Create S_SubSpline S_Mapper M_SubSpline M_Bases S_Bases P_SubCut P_SubWitness P_BasesLift P_BasesTop P_Bases W_Bases.
Import ListNotations.
Local Open Scope list_scope.
Local Open Scope nat_scope.

(** C88: without a view, spline [i] of the result has the points of [s] and, as one more coordinate,
    basis function [i].  There is no result exactly if some id is not a control point. *)
Theorem C88_bases :
  forall limit elev ins dim s ids, sound limit dim s -> (has_kvs s = false -> dim + 1 <= limit) ->
  match bases limit elev ins s ids false with
  | Some bs => Forall2 (shows s dim (sp_value s)) (chosen s ids) bs
  | None => exists i, In i (chosen s ids) /\ forall r, ~ row_of (length (sp_cps s)) i r
  end.
Proof. exact C88_bases_holds. Qed.
Print Assumptions C88_bases.

(** C88: with a view, for splines without weights whose knot vectors are clamped: the graph of basis
    function [i] above the parametric domain. *)
Theorem C88_view_partial :
  forall limit elev ins tol dim s ids, elevates_spans elev -> raises_multiplicity tol ins -> sound limit dim s -> sp_weights s = None ->
  Forall (viewable tol) (sp_axes s) -> (has_kvs s = false -> length (sp_axes s) + 1 <= limit) ->
  match bases limit elev ins s ids true with
  | Some bs => Forall2 (shows s (length (sp_axes s)) (fun us d => nth d us 0%Qc)) (chosen s ids) bs
  | None => exists i, In i (chosen s ids) /\ forall r, ~ row_of (length (sp_cps s)) i r
  end.
Proof. exact C88_view_partial_holds. Qed.
Print Assumptions C88_view_partial.

(** C88 fails for rational splines: at 1/2 every graph stands above 3/4. *)
Theorem C88_rational_refuted :
  forall elev ins, exists bs, bases 10 elev ins weighted_segment None true = Some bs /\ length bs = 2 /\
  forall b, In b bs -> sp_value b [qc 1 2] 0 = qc 3 4.
Proof. exact C88_rational_refuted_holds. Qed.
Print Assumptions C88_rational_refuted.

(** C88 fails for knot vectors that are not clamped: the first graph has 1/4 where the basis function
    has 1/8. *)
Theorem C88_unclamped_refuted :
  forall elev ins, elevates_spans elev ->
  exists b l, bases 10 elev ins unclamped None true = Some (b :: l) /\ sp_value b [qc 5 2] 1 = qc 1 4 /\ spline_basis unclamped 0 [qc 5 2] = qc 1 8.
Proof. exact C88_unclamped_refuted_holds. Qed.
Print Assumptions C88_unclamped_refuted.

(** Degree elevation and knot insertion as required exist. *)
Example C88_oracles : elevates_spans lift /\ raises_multiplicity (qc 1 4) insert_one.
Proof. exact C88_oracles_holds. Qed.

(** The two splines of the counterexamples can be constructed. *)
Example C88_sound : sound 10 1 weighted_segment /\ sound 10 1 unclamped.
Proof. exact C88_sound_holds. Qed.

(** A curve with an inner knot: the second graph at 1/4, computed with the oracles above. *)

Example C88_viewable : Forall (viewable (qc 1 4)) (sp_axes C88_curve).
Proof. exact C88_viewable_holds. Qed.

Example C88_graph : option_map (fun bs => map (fun b => (map ax_kv (sp_axes b), sp_value b [qc 1 4] 0, sp_value b [qc 1 4] 1)) bs) (bases 10 lift insert_one C88_curve (Some [1; -1]%Z) true) =
  Some [([[0; 0; 0; qc 1 2; 1; 1; 1]%Qc], qc 1 4, qc 5 8); ([[0; 0; 0; qc 1 2; 1; 1; 1]%Qc], qc 1 4, 0%Qc)].
Proof. exact C88_graph_holds. Qed.