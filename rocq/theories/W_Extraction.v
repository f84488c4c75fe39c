(** Witnesses and assembly of the theorems of T_Extraction. *)
From Coq Require Import List Arith ZArith QArith Qcanon Sorted Lia.
From Verif Require Import Base BaseQc S_Grid S_Spline S_Value S_Knots S_Pieces S_Extraction M_Knots M_KnotInsert M_Extraction P_Extraction.
Import ListNotations.
Local Open Scope list_scope.
Local Open Scope nat_scope.

Lemma C78_values_holds : forall tol axes grid,
  (0 < tol)%Qc -> axes <> [] ->
  Forall2 (fun a us => open_knots (fst a) (snd a) us /\ apart tol us) axes grid ->
  exists Ms, extraction_matrices tol axes = Some Ms /\
  length Ms = fold_right Nat.mul 1 (element_counts grid) /\
  forall c, below (element_counts grid) c ->
  exists M, nth_error Ms (flat_id (element_counts grid) c) = Some M /\
    convex_matrix (fold_right Nat.mul 1 (map (fun a => fst a + 1) axes))
                  (fold_right Nat.mul 1 (map n_basis axes)) M /\
    forall cps dim ts us d, length cps = fold_right Nat.mul 1 (map n_basis axes) ->
      element_parameter grid c ts us -> d < dim ->
      sp_value (bezier_of axes (combined M dim cps) None) ts d = sp_value (bspline_of axes cps None) us d.
Proof. exact extraction_ok. Qed.

Lemma C78_rational_holds : forall tol axes grid,
  (0 < tol)%Qc -> axes <> [] ->
  Forall2 (fun a us => open_knots (fst a) (snd a) us /\ apart tol us) axes grid ->
  exists Ms, extraction_matrices tol axes = Some Ms /\
  forall c, below (element_counts grid) c ->
  exists M, nth_error Ms (flat_id (element_counts grid) c) = Some M /\
    forall cps ws, length cps = fold_right Nat.mul 1 (map n_basis axes) ->
      length ws = fold_right Nat.mul 1 (map n_basis axes) -> Forall (fun w => 0 < w)%Qc ws ->
      Forall (fun w => 0 < w)%Qc (weights_of M ws) /\
      forall dim ts us d, element_parameter grid c ts us -> d < dim ->
      sp_value (bezier_of axes (projected (weights_of M ws) (combined M dim (weighted ws cps)))
                          (Some (weights_of M ws))) ts d
      = sp_value (bspline_of axes cps (Some ws)) us d.
Proof. exact extraction_rational. Qed.

Lemma C78_hypotheses_holds :
  Forall2 (fun a us => open_knots (fst a) (snd a) us /\ apart (qc 1 1000) us)
    [(2, map inj [0; 0; 0; 1; 3; 3; 3]); (1, map inj [0; 0; 2; 2])] [map inj [0; 1; 3]; map inj [0; 2]].
Proof.
  constructor; [|constructor; [|constructor]]; cbn [fst snd].
  - split; [split; [lia|split]|].
    + repeat constructor.
    + exists [1]. repeat split; try lia. repeat constructor.
    + intros x y Hx Hy. cbn [map In] in Hx, Hy. repeat (destruct Hx as [<-|Hx]; [repeat (destruct Hy as [<-|Hy]; [try (left; reflexivity); right; vm_compute; discriminate|]); destruct Hy|]); destruct Hx.
  - split; [split; [lia|split]|].
    + repeat constructor.
    + exists []. repeat split; try lia. repeat constructor.
    + intros x y Hx Hy. cbn [map In] in Hx, Hy. repeat (destruct Hx as [<-|Hx]; [repeat (destruct Hy as [<-|Hy]; [try (left; reflexivity); right; vm_compute; discriminate|]); destruct Hy|]); destruct Hx.
Qed.

Lemma C78_surface_holds : exists M0 M1,
  extraction_matrices (qc 1 1000) [(2, map inj [0; 0; 0; 1; 3; 3; 3]); (1, map inj [0; 0; 2; 2])] = Some [M0; M1] /\
  length M0 = 6 /\ nth 2 M0 [] = [0; qc 2 3; qc 1 3; 0; 0; 0; 0; 0]%Qc.
Proof.
  eexists; eexists. split; [vm_compute; reflexivity|]. split; [reflexivity|].
  cbn [nth]. repeat (f_equal; try (apply Qc_is_canon; vm_compute; reflexivity)).
Qed.

Lemma C78_points_holds : exists M0 M1,
  extraction_matrices (qc 1 1000) [(2, map inj [0; 0; 0; 1; 2; 2; 2])] = Some [M0; M1] /\
  combined M0 2 [[0; 0]; [0; 1]; [1; 1]; [1; 0]]%Qc = [[0; 0]; [0; 1]; [qc 1 2; 1]]%Qc.
Proof.
  eexists; eexists. split; [vm_compute; reflexivity|]. vm_compute. repeat (f_equal; try (apply Qc_is_canon; vm_compute; reflexivity)).
Qed.

Lemma C78_unclamped_refuted_holds : exists p kv n,
  knot_vector p n kv /\ 1 <= p /\ StronglySorted Qclt kv /\ extraction_matrices (qc 1 1000) [(p, kv)] = None.
Proof.
  exists 1, (map inj [0; 1; 2; 3; 4]), 3. split; [|split; [lia|split]].
  - split; [reflexivity|]. split; [|vm_compute; reflexivity].
    intros i j Hij Hj. cbn [map length] in *.
    destruct i as [|[|[|[|[|i]]]]], j as [|[|[|[|[|j]]]]]; try lia; vm_compute; discriminate.
  - repeat constructor.
  - vm_compute. reflexivity.
Qed.

Lemma C78_degree_zero_refuted_holds : exists kv n,
  knot_vector 0 n kv /\ extraction_matrices (qc 1 1000) [(0, kv)] = None.
Proof.
  exists (map inj [0; 1; 2]), 2. split.
  - split; [reflexivity|]. split; [|vm_compute; reflexivity].
    intros i j Hij Hj. cbn [map length] in *.
    destruct i as [|[|[|i]]], j as [|[|[|j]]]; try lia; vm_compute; discriminate.
  - vm_compute. reflexivity.
Qed.
