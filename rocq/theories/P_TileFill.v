(** Cross3D and InverseCross3D fill the cell: comparison of the control points. *)
From Coq Require Import String List Arith Lia ZArith QArith Qcanon Bool.
From Verif Require Import Base BaseQc S_Grid M_Grid S_Spline S_Value S_Deriv M_Core S_Integrate
  M_Tiles M_Tile2D M_Tile3D M_TileMake M_TileInverse S_Tiles S_TileFit P_Tiles P_Tile2D P_Tile3D P_TileCross3 P_TileFit.
Import ListNotations.
Local Open Scope list_scope.
Local Open Scope nat_scope.

Lemma plain_fits sep c x0 x1 y0 y1 z0 z1 :
  fitted 3 (plain3 true c x0 x1 y0 y1 z0 z1 ++ inv3 sep c x0 x1 y0 y1 z0 z1 x0 x1 y0 y1 z0 z1).
Proof.
  (fit (plain3 true (qc 1 4) (qc 21 100) (qc 22 100) (qc 23 100) (qc 24 100) (qc 25 100) (qc 26 100) ++
       inv3 (qc 3 10) (qc 1 4) (qc 21 100) (qc 22 100) (qc 23 100) (qc 24 100) (qc 25 100) (qc 26 100)(qc 21 100) (qc 22 100) (qc 23 100) (qc 24 100) (qc 25 100) (qc 26 100))).
Qed.
Lemma bottom_fits w f sep b : fitted 3 (bottom3 true w 0 f b ++ inv_bottom w f sep b).
Proof.
  (fit (bottom3 true (qc 1 10) 0 (qc 1 3) (qc 1 4) ++ inv_bottom (qc 1 10) (qc 1 3) (qc 3 10) (qc 1 4))).
Qed.
Lemma top_fits w f sep b : fitted 3 (top3 true w 0 f b ++ inv_top w f sep b).
Proof.
  (fit (top3 true (qc 1 10) 0 (qc 1 3) (qc 1 4) ++ inv_top (qc 1 10) (qc 1 3) (qc 3 10) (qc 1 4))).
Qed.
