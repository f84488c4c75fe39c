(** Property theorems C10, C11: permuting and flipping parametric axes. *)
From Coq Require Import List Arith ZArith QArith Qcanon Lia Permutation.
From Verif Require Import Base BaseQc S_Spline S_Value S_Reparam M_Reparam P_Spline P_Reparam W_Reparam.
Import ListNotations.
Local Open Scope nat_scope.

(** C10: the permuted spline takes at (u_{p[0]}, u_{p[1]}, ...) the value of the
    original at u; axis i of the result is axis p[i] of the original. *)
Theorem C10_permutation_relabels :
  forall s p,
  sp_wf s -> Permutation p (seq 0 (length (sp_axes s))) ->
  exists s', permute_parametric_axes s (map Z.of_nat p) = Some s' /\ sp_wf s' /\
    sp_axes s' = map (fun i => nth i (sp_axes s) (BezierAxis 0)) p /\
    forall us d, length us = length (sp_axes s) ->
      sp_value s' (map (fun i => nth i us 0%Qc) p) d = sp_value s us d.
Proof. exact permute_values. Qed.
Print Assumptions C10_permutation_relabels.

(** C10: the inverse permutation q restores every property of the spline. *)
Theorem C10_inverse_restores :
  forall s p q,
  sp_wf s -> Permutation p (seq 0 (length (sp_axes s))) ->
  length q = length (sp_axes s) ->
  (forall k, k < length (sp_axes s) -> nth (nth k q 0) p 0 = k) ->
  (forall k, k < length (sp_axes s) -> nth k q 0 < length (sp_axes s)) ->
  exists s', permute_parametric_axes s (map Z.of_nat p) = Some s' /\
             permute_parametric_axes s' (map Z.of_nat q) = Some s.
Proof. exact permute_back. Qed.
Print Assumptions C10_inverse_restores.

(** C10: everything that is not a permutation of 0 .. para_dim-1 raises. *)
Theorem C10_invalid_raises :
  forall s perm,
  ~ Permutation perm (map Z.of_nat (seq 0 (length (sp_axes s)))) ->
  permute_parametric_axes s perm = None.
Proof. exact permute_rejects. Qed.
Print Assumptions C10_invalid_raises.

Example C10_example :
  sp_wf wit_surface /\
  exists s', permute_parametric_axes wit_surface [1%Z; 0%Z] = Some s' /\
             sp_cps s' = map (fun i => [inj i; inj (i * i)]) [0; 4; 1; 5; 2; 6; 3; 7] /\
             permute_parametric_axes s' [1%Z; 0%Z] = Some wit_surface /\
             permute_parametric_axes s' [0%Z; 0%Z] = None.
Proof. split; [exact wit_surface_wf|]. eexists. repeat split; reflexivity. Qed.

(** C11 for distinct axes: mirrored parametrization, and flipping twice restores
    every property.  Partial: at an interior knot whose multiplicity exceeds the
    degree, and for repeated axes, the claim is refuted below. *)
Theorem C11_flip_partial :
  forall s zs ks,
  sp_wf s -> Forall2 (names_axis (length (sp_axes s))) zs ks -> NoDup ks ->
  exists s', flip_axes s zs = Some s' /\ sp_wf s' /\
    map ax_n (sp_axes s') = map ax_n (sp_axes s) /\
    flip_axes s' zs = Some s /\
    forall us d, sp_domain s us ->
      (forall k a, In k ks -> nth_error (sp_axes s) k = Some a ->
         ax_continuous_at a (nth k (flip_params ks (sp_axes s) us) 0%Qc)) ->
      sp_value s' us d = sp_value s (flip_params ks (sp_axes s) us) d.
Proof. exact flip_values. Qed.
Print Assumptions C11_flip_partial.

Theorem C11_out_of_range_raises :
  forall s zs,
  Exists (fun z => (z < - Z.of_nat (length (sp_axes s)) \/ Z.of_nat (length (sp_axes s)) <= z)%Z) zs ->
  flip_axes s zs = None.
Proof. exact flip_rejects. Qed.
Print Assumptions C11_out_of_range_raises.

(** C11: at a discontinuity the flipped spline takes the other one-sided limit. *)
Theorem C11_discontinuity_refuted :
  exists s s' u,
    sp_wf s /\ sp_domain s [u] /\ flip_axes s [0%Z] = Some s' /\
    sp_value s' [u] 0 <> sp_value s (flip_params [0] (sp_axes s) [u]) 0.
Proof. exact flip_jump. Qed.
Print Assumptions C11_discontinuity_refuted.

(** C11: an axis listed twice flips its knot vector twice but the control points
    once; the result is neither the flipped nor the original spline. *)
Theorem C11_repeated_axis_refuted :
  exists s s' u,
    sp_wf s /\ sp_domain s [u] /\ flip_axes s [0%Z; 0%Z] = Some s' /\
    sp_value s' [u] 0 <> sp_value s (flip_params [0] (sp_axes s) [u]) 0 /\
    sp_value s' [u] 0 <> sp_value s [u] 0.
Proof. exact flip_repeat. Qed.
Print Assumptions C11_repeated_axis_refuted.

Example C11_example :
  sp_wf wit_surface /\ Forall2 (names_axis 2) [-2]%Z [0] /\
  sp_domain wit_surface [qc 3 4; qc 1 3] /\
  ax_continuous_at (KnotAxis 2 [0; 0; 0; qc 1 4; 1; 1; 1]%Qc) (qc 1 4) /\
  exists s', flip_axes wit_surface [-2]%Z = Some s' /\
             sp_axes s' = [KnotAxis 2 [0; 0; 0; qc 3 4; 1; 1; 1]%Qc; KnotAxis 1 [0; 0; 1; 1]%Qc].
Proof.
  split; [exact wit_surface_wf|]. split; [|split; [|split]].
  - constructor; [|constructor]. split; [lia|right; reflexivity].
  - constructor; [|constructor; [|constructor]]; split; vm_compute; discriminate.
  - intros i E _ _. destruct i as [|[|[|[|i]]]]; try (exfalso; vm_compute in E; discriminate E).
    + vm_compute. reflexivity.
    + exfalso. destruct i as [|[|[|i]]]; try (rewrite kn_past in E by (cbn; lia));
      vm_compute in E; discriminate.
  - eexists. split; [reflexivity|]. vm_compute. reflexivity.
Qed.
