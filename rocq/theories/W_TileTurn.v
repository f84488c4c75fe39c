(** Witnesses and assembly of the theorems of T_TileTurn. *)
From Coq Require Import List Arith ZArith Bool QArith Qcanon Lia.
From Verif Require Import Base BaseQc S_Deriv M_Tiles M_TileMake S_Tiles P_Tile2D S_TileTurn P_TileTurn.
Import ListNotations.
Local Open Scope list_scope.
Local Open Scope nat_scope.

Lemma C75_cube_void_turned_partial_holds : forall m p s T Ds,
  length p = 1 -> no_turn_y s -> trig_slopes m (nth 2 (nth 0 p []) 0%Qc) -> cube_void_create m (Some p) (Some s) = Made T Ds ->
  right_rates 3 (fun p => splines_of (cube_void_create m (Some p) None)) p s T Ds.
Proof. exact cube_void_turned. Qed.

Lemma C75_ellips_void_turned_partial_holds : forall m p s T Ds,
  length p = 1 -> no_turn_y s -> trig_slopes m (nth 2 (nth 0 p []) 0%Qc) -> ellips_create m (Some p) (Some s) = Made T Ds ->
  right_rates 3 (fun p => splines_of (ellips_create m (Some p) None)) p s T Ds.
Proof. exact ball_turned. Qed.

Lemma C75_turned_example_holds :
  let p := [[qc 1 2; qc 1 3; 0; qc 1 5]]%Qc in let s := [[[1; 0]; [0; 0]; [0; 1]; [0; 0]]]%Qc in
  length p = 1 /\ no_turn_y s /\ trig_slopes turning_libm (nth 2 (nth 0 p []) 0%Qc) /\
  (exists T Ds, cube_void_create turning_libm (Some p) (Some s) = Made T Ds) /\
  (exists T Ds, ellips_create turning_libm (Some p) (Some s) = Made T Ds).
Proof.
  cbn zeta. split; [reflexivity|]. split; [|split; [exact turning_slopes|]].
  - intros i Hi. cbn in Hi. destruct i as [|[|i]]; [reflexivity|reflexivity|lia].
  - split; eexists; eexists; reflexivity.
Qed.

