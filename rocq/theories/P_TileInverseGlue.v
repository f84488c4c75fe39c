(** Proofs about InverseCross3D: gluing. *)
From Coq Require Import String List Arith Lia ZArith QArith Qcanon Bool.
From Verif Require Import Base BaseQc S_Grid M_Grid S_Spline S_Value S_Deriv M_Core S_Integrate
  M_Tiles M_Tile2D M_Tile3D M_TileMake M_TileInverse S_Tiles S_TileFit P_Tiles P_Tile2D P_Tile3D P_TileCross3 P_TileTouch P_TileFit P_TileInverse.
Import ListNotations.
Local Open Scope list_scope.
Local Open Scope nat_scope.

Definition inv_sample := inv3 (qc 3 10) (qc 1 4) (qc 1 5) (qc 1 5) (qc 21 100) (qc 21 100) (qc 22 100) (qc 22 100) (qc 1 5) (qc 1 5) (qc 21 100) (qc 21 100) (qc 22 100) (qc 22 100).
Definition inv_bottom_sample := inv_bottom (qc 1 10) (qc 1 3) (qc 3 10) (qc 22 100).
Definition inv_top_sample := inv_top (qc 1 10) (qc 1 3) (qc 3 10) (qc 22 100).
Ltac parts ::= repeat match goal with H : Forall _ (_ :: _) |- _ => inversion H; clear H; subst end; unfold half, ok, width_ok in *; flat.
Lemma inv3_glued a sep c x0 x1 y0 y1 z0 z1 a0 a1 b0 b1 d0 d1 c' x0' x1' y0' y1' z0' z1' a0' a1' b0' b1' d0' d1' :
  Forall ok [sep; c; x0; x1; y0; y1; z0; z1] -> Forall ok [c'; x0'; x1'; y0'; y1'; z0'; z1'] ->
  a < 3 -> nth a [x1; y1; z1] 0%Qc = nth a [x0'; y0'; z0'] 0%Qc ->
  glued 3 a (inv3 sep c x0 x1 y0 y1 z0 z1 a0 a1 b0 b1 d0 d1) (inv3 sep c' x0' x1' y0' y1' z0' z1' a0' a1' b0' b1' d0' d1').
Proof.
  intros H H' Ha E. assert (a = 0 \/ a = 1 \/ a = 2) as [-> | [-> | ->]] by lia; cbn [nth] in E; subst; parts;
  [glue inv_sample inv_sample|glue inv_sample inv_sample|glue inv_sample inv_sample].
Qed.
Lemma inv_z_glued sep c x0 x1 y0 y1 z0 z1 a0 a1 b0 b1 d0 d1 c' x0' x1' y0' y1' z1' a0' a1' b0' b1' d0' d1' w f w' f' :
  Forall ok [sep; c; x0; x1; y0; y1; z0; z1] -> Forall ok [c'; x0'; x1'; y0'; y1'; z1'] ->
  width_ok w f -> width_ok w' f' ->
  glued 3 2 (inv3 sep c x0 x1 y0 y1 z0 z1 a0 a1 b0 b1 d0 d1) (inv_top w' f' sep z1) /\
  glued 3 2 (inv_bottom w f sep z1) (inv3 sep c' x0' x1' y0' y1' z1 z1' a0' a1' b0' b1' d0' d1') /\
  glued 3 2 (inv_bottom w f sep z1) (inv_top w' f' sep z1).
Proof.
  intros H H' W W'. parts. split; [|split].
  - glue inv_sample inv_top_sample.
  - glue inv_bottom_sample inv_sample.
  - glue inv_bottom_sample inv_top_sample.
Qed.
Lemma inv_beside_glued a w f sep b b' : a < 2 -> width_ok w f -> ok sep -> ok b -> ok b' ->
  glued 3 a (inv_bottom w f sep b) (inv_bottom w f sep b') /\ glued 3 a (inv_top w f sep b) (inv_top w f sep b').
Proof.
  intros Ha W S B B'. parts. assert (a = 0 \/ a = 1) as [-> | ->] by lia; split.
  - glue inv_bottom_sample inv_bottom_sample.
  - glue inv_top_sample inv_top_sample.
  - glue inv_bottom_sample inv_bottom_sample.
  - glue inv_top_sample inv_top_sample.
Qed.
