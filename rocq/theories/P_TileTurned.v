(** Orientation of the patches around a void. *)
From Coq Require Import String List Arith Lia ZArith QArith Qcanon Bool.
From Verif Require Import Base BaseQc S_Grid M_Grid S_Spline S_Value S_Deriv M_Core S_Integrate P_Value P_Deriv
  M_Tiles M_Tile2D M_Tile3D M_TileMake S_Tiles P_Tiles P_Tile2D P_TileSnappy P_TileOctagon P_TileCross3 P_TileWall P_Tile3D P_TileVoid P_TileNot.
Import ListNotations.
Local Open Scope list_scope.
Local Open Scope nat_scope.

(** The void is not turned. *)
Definition unturned (m : libm) (p : array2) (a b : Qc) : Prop :=
  concat p = [a; b; 0; 0]%Qc /\ cos m 0%Qc = 1%Qc /\ sin m 0%Qc = 0%Qc.
Definition corners (x0 x1 y0 y1 : Qc) : list (list Qc) :=
  [[x0; y0; y0]; [x1; y0; y0]; [x0; y1; y0]; [x1; y1; y0]; [x0; y0; y1]; [x1; y0; y1]; [x0; y1; y1]; [x1; y1; y1]].
Lemma unturned_corners m p a b : unturned m p a b ->
  shift (repeat (qc 1 2) 3) (void_points m cube_points (concat p)) =
  corners (qc 1 2 - a * qc 1 2) (qc 1 2 + a * qc 1 2) (qc 1 2 - b * qc 1 2) (qc 1 2 + b * qc 1 2).
Proof.
  intros (-> & C & S). unfold corners, void_points, rotation_x, rotation_y. cbn [nth]. rewrite C, S.
  unfold shift, apply_rows, mat_mul, diag3, cube_points. reduce_tables. repeat match goal with |- @eq Qc _ _ => ring | |- (_ :: _) = (_ :: _) => apply f_equal2 | |- _ => reflexivity end.
Qed.
Lemma cube_void_right m p s T D a b : cube_void_create m (Some p) s = Made T D -> unturned m p a b ->
  (0 < a -> a < 1 -> 0 < b -> b < 1 -> right_handed T)%Qc.
Proof.
  intros H U A0 A1 B0 B1. apply void_inv in H. destruct H as (_ & -> & _). rewrite (unturned_corners _ _ _ _ U).
  assert (exists x0 x1 y0 y1, (qc 1 2 - a * qc 1 2 = x0 /\ qc 1 2 + a * qc 1 2 = x1 /\ qc 1 2 - b * qc 1 2 = y0 /\ qc 1 2 + b * qc 1 2 = y1 /\ 0 < x0 /\ x0 < x1 /\ x1 < 1 /\ 0 < y0 /\ y0 < y1 /\ y1 < 1)%Qc) as (x0 & x1 & y0 & y1 & -> & -> & -> & -> & G).
  { do 4 eexists. do 4 (split; [reflexivity|]). unfold qc. clear - A0 A1 B0 B1. repeat split; qlra. }
  clear - G. flat. orients 3 cube_sample; reduce_tables; facts ltac:(arith).
Qed.
Lemma cube_void_turned m : cos m 0%Qc = 1%Qc -> sin m 0%Qc = 0%Qc ->
  exists p T, cube_void_create m (Some p) None = Made T None /\ ~ right_handed T.
Proof.
  intros C S. exists [[qc 2 1; qc 1 2; 0; 0]]%Qc. eexists. split; [unfold cube_void_create; apply void_made; [reflexivity|discriminate]|].
  rewrite (unturned_corners m _ (qc 2 1) (qc 1 2)) by (repeat split; auto).
  eapply (turned _ 4 [1; 1; 1] _ [qc 1 2; qc 1 2; qc 1 2]); [reflexivity|cbn; lia|reflexivity|repeat constructor|].
  intro Z. vm_compute in Z. discriminate Z.
Qed.
