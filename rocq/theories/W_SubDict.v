(** Witnesses and assembly of the theorems of T_SubDict. *)
From Coq Require Import List Arith ZArith Lia Bool QArith Qcanon Permutation.
From Verif Require Import Base BaseQc S_Value M_Core S_Core S_Files M_Create S_Create S_SubSpline M_SubSpline P_SubWitness P_SubExample S_SubDict M_SubDict P_SubDict.
Import ListNotations.
Local Open Scope list_scope.
Local Open Scope nat_scope.

Lemma C84_values_holds : forall limit dim tol ins s planes,
  (0 < tol)%Qc -> raises_multiplicity tol ins -> sound limit dim s -> NoDup (map fst planes) ->
  (forall k it, In (k, it) planes -> exists a, nth_error (sp_axes s) k = Some a /\ item_ok tol a it) ->
  let P := plan_of (length (sp_axes s)) planes in length (filter is_value P) < length (sp_axes s) ->
  exists r, sub_splines limit tol ins s planes = Some r /\ sound limit dim r /\ (sp_weights r = None <-> sp_weights s = None) /\
    parts (sp_axes s) P (sp_axes r) /\
    forall us d, sp_domain r us -> d < dim -> no_jump (sp_axes s) P us ->
      sp_value r us d = sp_value s (original (sp_axes s) P us) d.
Proof. exact dict_values. Qed.

Lemma C84_order_holds : forall limit tol ins s planes planes', NoDup (map fst planes) -> Permutation planes planes' ->
  sub_splines limit tol ins s planes = sub_splines limit tol ins s planes'.
Proof. exact dict_order. Qed.

Lemma C84_hypotheses_holds : let planes := [(0, [1%Qc]); (1, [qc 1 4; qc 1 2])] in
  NoDup (map fst planes) /\
  (forall k it, In (k, it) planes -> exists a, nth_error (sp_axes sub_surface) k = Some a /\ item_ok (qc 1 1000) a it) /\
  length (filter is_value (plan_of 2 planes)) < 2 /\
  original (sp_axes sub_surface) (plan_of 2 planes) [qc 1 3] = [1; qc 1 3]%Qc.
Proof. exact dict_example. Qed.

