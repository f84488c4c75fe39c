(** Property theorems C75 continued: rates of the voids turned about the x axis. *)
From Coq Require Import List Arith ZArith Bool QArith Qcanon Lia.
From Verif Require Import Base BaseQc S_Deriv M_Tiles M_TileMake S_Tiles P_Tile2D S_TileTurn P_TileTurn W_TileTurn.
Import ListNotations.
Local Open Scope list_scope.
Local Open Scope nat_scope.

(** C75, partial: the derivatives of CubeVoid are right for sensitivities of the sizes and of
    the angle about the x axis.  Missing: the angle about the y axis (C75_cube_void_refuted). *)
Theorem C75_cube_void_turned_partial : forall m p s T Ds,
  length p = 1 -> no_turn_y s -> trig_slopes m (nth 2 (nth 0 p []) 0%Qc) -> cube_void_create m (Some p) (Some s) = Made T Ds ->
  right_rates 3 (fun p => splines_of (cube_void_create m (Some p) None)) p s T Ds.
Proof. exact C75_cube_void_turned_partial_holds. Qed.
Print Assumptions C75_cube_void_turned_partial.

(** C75, partial: the same for EllipsVoid (C75_ellips_void_refuted). *)
Theorem C75_ellips_void_turned_partial : forall m p s T Ds,
  length p = 1 -> no_turn_y s -> trig_slopes m (nth 2 (nth 0 p []) 0%Qc) -> ellips_create m (Some p) (Some s) = Made T Ds ->
  right_rates 3 (fun p => splines_of (ellips_create m (Some p) None)) p s T Ds.
Proof. exact C75_ellips_void_turned_partial_holds. Qed.
Print Assumptions C75_ellips_void_turned_partial.

(** Voids turned at angle zero, with two design variables. *)
Example C75_turned_example :
  let p := [[qc 1 2; qc 1 3; 0; qc 1 5]]%Qc in let s := [[[1; 0]; [0; 0]; [0; 1]; [0; 0]]]%Qc in
  length p = 1 /\ no_turn_y s /\ trig_slopes turning_libm (nth 2 (nth 0 p []) 0%Qc) /\
  (exists T Ds, cube_void_create turning_libm (Some p) (Some s) = Made T Ds) /\
  (exists T Ds, ellips_create turning_libm (Some p) (Some s) = Made T Ds).
Proof. exact C75_turned_example_holds. Qed.