(** Property theorems C08: boundary extraction. *)
From Coq Require Import List Arith ZArith QArith Qcanon Lia.
From Verif Require Import Base BaseQc S_Grid S_Spline S_Value M_Extract P_Extract W_KnotInsert.
Import ListNotations.
Local Open Scope nat_scope.

(** C08: boundary 2k (upper = false) or 2k+1 (upper = true) has the remaining
    axes and traces the original with axis k fixed at its bound. *)
Theorem C08_boundary_traces :
  forall s k a (upper : bool),
  sp_wf s -> 2 <= length (sp_axes s) -> nth_error (sp_axes s) k = Some a -> ax_clamped a ->
  exists s', extract_boundary s (2 * k + Nat.b2n upper) = Extracted s' /\
    sp_axes s' = remove_at k (sp_axes s) /\ sp_wf s' /\
    (sp_weights s' = None <-> sp_weights s = None) /\
    forall v d, length v = length (sp_axes s') ->
      sp_value s' v d = sp_value s (insert_at k (if upper then ax_upper a else ax_lower a) v) d.
Proof. exact boundary_traces. Qed.
Print Assumptions C08_boundary_traces.

(** C08: the default request lists the boundaries 0 .. 2*para_dim-1 in order. *)
Theorem C08_all_boundaries :
  forall s,
  extract_boundaries s [] = Some (map (extract_boundary s) (seq 0 (2 * length (sp_axes s)))).
Proof. exact boundaries_default. Qed.
Print Assumptions C08_all_boundaries.

Theorem C08_requested_boundaries :
  forall s bids,
  bids <> [] -> Forall (fun b => (0 <= b < 2 * Z.of_nat (length (sp_axes s)))%Z) bids ->
  extract_boundaries s bids = Some (map (fun b => extract_boundary s (Z.to_nat b)) bids).
Proof. exact boundaries_requested. Qed.
Print Assumptions C08_requested_boundaries.

Theorem C08_invalid_request :
  forall s bids,
  Exists (fun b => (b < 0 \/ 2 * Z.of_nat (length (sp_axes s)) <= b)%Z) bids ->
  extract_boundaries s bids = None.
Proof. exact boundaries_rejected. Qed.
Print Assumptions C08_invalid_request.

(** C08: curves have no boundary spline; an empty spline and a warning come back. *)
Theorem C08_curve_boundary_empty :
  forall s bid, length (sp_axes s) <= 1 -> extract_boundary s bid = EmptySpline.
Proof. exact curve_boundary_empty. Qed.
Print Assumptions C08_curve_boundary_empty.

(** A NURBS surface mixing an inner knot with a linear axis meets the hypotheses. *)
Example C08_example :
  let s := Spl [KnotAxis 2 [0; 0; 0; qc 1 2; 1; 1; 1]%Qc; KnotAxis 1 [0; 0; 1; 1]%Qc]
               (map (fun i => [inj i; inj (i * i)]) (seq 0 8))
               (Some (map (fun i => inj (i + 1)) (seq 0 8))) in
  sp_wf s /\ Forall ax_clamped (sp_axes s) /\
  exists s', extract_boundary s 1 = Extracted s' /\
             sp_cps s' = [[inj 3; inj 9]; [inj 7; inj 49]].
Proof.
  cbn zeta. split; [|split].
  - split; [|split; reflexivity].
    constructor; [|constructor; [|constructor]]; apply knot_vector_dec; vm_compute; reflexivity.
  - constructor; [|constructor; [|constructor]]; vm_compute; repeat split; auto.
  - eexists. split; reflexivity.
Qed.
