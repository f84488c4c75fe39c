(** Control points of InverseCross3D, splinepy/microstructure/tiles/inverse_cross_3d.py.
    As in M_Tile2D. *)
From Coq Require Import String List Arith ZArith QArith Qcanon Bool.
From Verif Require Import Base BaseQc S_Grid S_Spline S_Value M_Tiles M_TileMake.
Import ListNotations.
Local Open Scope list_scope.
Local Open Scope nat_scope.

(** inverse_cross_3d.py 116-479: the tile that closes z_min. *)
Definition inverse_z_min (filling_height inv_filling_height ctps_mid_height_top ctps_mid_height_bottom center_width r_center half_r_center aux_column_width seperator_distance branch_thickness : Qc) : tile := (
  let branch_neighbor_x_min_ctps := (* 116-149 *)
      (shift [qc 1 2; qc 1 2; 0]
      [[- (qc 1 2); - r_center; filling_height];
       [- half_r_center; - r_center; filling_height];
       [- r_center; - r_center; filling_height];
       [- (qc 1 2); r_center; filling_height];
       [- half_r_center; r_center; filling_height];
       [- r_center; r_center; filling_height];
       [- (qc 1 2); - aux_column_width; ctps_mid_height_top];
       [- seperator_distance; - aux_column_width; ctps_mid_height_top];
       [- branch_thickness; - branch_thickness; ctps_mid_height_top];
       [- (qc 1 2); aux_column_width; ctps_mid_height_top];
       [- seperator_distance; aux_column_width; ctps_mid_height_top];
       [- branch_thickness; branch_thickness; ctps_mid_height_top];
       [- (qc 1 2); - aux_column_width; 1];
       [- seperator_distance; - aux_column_width; 1];
       [- branch_thickness; - branch_thickness; 1];
       [- (qc 1 2); aux_column_width; 1];
       [- seperator_distance; aux_column_width; 1];
       [- branch_thickness; branch_thickness; 1]]) in
  let branch_neighbor_x_max_ctps := (* 158-187 *)
      (shift [qc 1 2; qc 1 2; 0]
      [[r_center; - r_center; filling_height];
       [half_r_center; - r_center; filling_height];
       [qc 1 2; - r_center; filling_height];
       [r_center; r_center; filling_height];
       [half_r_center; r_center; filling_height];
       [qc 1 2; r_center; filling_height];
       [branch_thickness; - branch_thickness; ctps_mid_height_top];
       [seperator_distance; - aux_column_width; ctps_mid_height_top];
       [qc 1 2; - aux_column_width; ctps_mid_height_top];
       [branch_thickness; branch_thickness; ctps_mid_height_top];
       [seperator_distance; aux_column_width; ctps_mid_height_top];
       [qc 1 2; aux_column_width; ctps_mid_height_top];
       [branch_thickness; - branch_thickness; 1];
       [seperator_distance; - aux_column_width; 1];
       [qc 1 2; - aux_column_width; 1];
       [branch_thickness; branch_thickness; 1];
       [seperator_distance; aux_column_width; 1];
       [qc 1 2; aux_column_width; 1]]) in
  let branch_neighbor_y_min_ctps := (* 196-229 *)
      (shift [qc 1 2; qc 1 2; 0]
      [[- r_center; - (qc 1 2); filling_height];
       [r_center; - (qc 1 2); filling_height];
       [- r_center; - half_r_center; filling_height];
       [r_center; - half_r_center; filling_height];
       [- r_center; - r_center; filling_height];
       [r_center; - r_center; filling_height];
       [- aux_column_width; - (qc 1 2); ctps_mid_height_top];
       [aux_column_width; - (qc 1 2); ctps_mid_height_top];
       [- aux_column_width; - seperator_distance; ctps_mid_height_top];
       [aux_column_width; - seperator_distance; ctps_mid_height_top];
       [- branch_thickness; - branch_thickness; ctps_mid_height_top];
       [branch_thickness; - branch_thickness; ctps_mid_height_top];
       [- aux_column_width; - (qc 1 2); 1];
       [aux_column_width; - (qc 1 2); 1];
       [- aux_column_width; - seperator_distance; 1];
       [aux_column_width; - seperator_distance; 1];
       [- branch_thickness; - branch_thickness; 1];
       [branch_thickness; - branch_thickness; 1]]) in
  let branch_neighbor_y_max_ctps := (* 238-267 *)
      (shift [qc 1 2; qc 1 2; 0]
      [[- r_center; r_center; filling_height];
       [r_center; r_center; filling_height];
       [- r_center; half_r_center; filling_height];
       [r_center; half_r_center; filling_height];
       [- r_center; qc 1 2; filling_height];
       [r_center; qc 1 2; filling_height];
       [- branch_thickness; branch_thickness; ctps_mid_height_top];
       [branch_thickness; branch_thickness; ctps_mid_height_top];
       [- aux_column_width; seperator_distance; ctps_mid_height_top];
       [aux_column_width; seperator_distance; ctps_mid_height_top];
       [- aux_column_width; qc 1 2; ctps_mid_height_top];
       [aux_column_width; qc 1 2; ctps_mid_height_top];
       [- branch_thickness; branch_thickness; 1];
       [branch_thickness; branch_thickness; 1];
       [- aux_column_width; seperator_distance; 1];
       [aux_column_width; seperator_distance; 1];
       [- aux_column_width; qc 1 2; 1];
       [aux_column_width; qc 1 2; 1]]) in
  let branch_x_min_y_min_ctps := (* 276-322 *)
      (shift [qc 1 2; qc 1 2; 0]
      [[- (qc 1 2); - (qc 1 2); filling_height];
       [- half_r_center; - (qc 1 2); filling_height];
       [- r_center; - (qc 1 2); filling_height];
       [- (qc 1 2); - half_r_center; filling_height];
       [- half_r_center; - half_r_center; filling_height];
       [- r_center; - half_r_center; filling_height];
       [- (qc 1 2); - r_center; filling_height];
       [- half_r_center; - r_center; filling_height];
       [- r_center; - r_center; filling_height];
       [- (qc 1 2); - (qc 1 2); ctps_mid_height_top];
       [- seperator_distance; - (qc 1 2); ctps_mid_height_top];
       [- aux_column_width; - (qc 1 2); ctps_mid_height_top];
       [- (qc 1 2); - seperator_distance; ctps_mid_height_top];
       [- seperator_distance; - seperator_distance; ctps_mid_height_top];
       [- aux_column_width; - seperator_distance; ctps_mid_height_top];
       [- (qc 1 2); - aux_column_width; ctps_mid_height_top];
       [- seperator_distance; - aux_column_width; ctps_mid_height_top];
       [- branch_thickness; - branch_thickness; ctps_mid_height_top];
       [- (qc 1 2); - (qc 1 2); 1];
       [- seperator_distance; - (qc 1 2); 1];
       [- aux_column_width; - (qc 1 2); 1];
       [- (qc 1 2); - seperator_distance; 1];
       [- seperator_distance; - seperator_distance; 1];
       [- aux_column_width; - seperator_distance; 1];
       [- (qc 1 2); - aux_column_width; 1];
       [- seperator_distance; - aux_column_width; 1];
       [- branch_thickness; - branch_thickness; 1]]) in
  let branch_x_min_y_max_ctps := (* 330-372 *)
      (shift [qc 1 2; qc 1 2; 0]
      [[- (qc 1 2); r_center; filling_height];
       [- half_r_center; r_center; filling_height];
       [- r_center; r_center; filling_height];
       [- (qc 1 2); half_r_center; filling_height];
       [- half_r_center; half_r_center; filling_height];
       [- r_center; half_r_center; filling_height];
       [- (qc 1 2); qc 1 2; filling_height];
       [- half_r_center; qc 1 2; filling_height];
       [- r_center; qc 1 2; filling_height];
       [- (qc 1 2); aux_column_width; ctps_mid_height_top];
       [- seperator_distance; aux_column_width; ctps_mid_height_top];
       [- branch_thickness; branch_thickness; ctps_mid_height_top];
       [- (qc 1 2); seperator_distance; ctps_mid_height_top];
       [- seperator_distance; seperator_distance; ctps_mid_height_top];
       [- aux_column_width; seperator_distance; ctps_mid_height_top];
       [- (qc 1 2); qc 1 2; ctps_mid_height_top];
       [- seperator_distance; qc 1 2; ctps_mid_height_top];
       [- aux_column_width; qc 1 2; ctps_mid_height_top];
       [- (qc 1 2); aux_column_width; 1];
       [- seperator_distance; aux_column_width; 1];
       [- branch_thickness; branch_thickness; 1];
       [- (qc 1 2); seperator_distance; 1];
       [- seperator_distance; seperator_distance; 1];
       [- aux_column_width; seperator_distance; 1];
       [- (qc 1 2); qc 1 2; 1];
       [- seperator_distance; qc 1 2; 1];
       [- aux_column_width; qc 1 2; 1]]) in
  let branch_x_max_y_min_ctps := (* 380-422 *)
      (shift [qc 1 2; qc 1 2; 0]
      [[r_center; - (qc 1 2); filling_height];
       [half_r_center; - (qc 1 2); filling_height];
       [qc 1 2; - (qc 1 2); filling_height];
       [r_center; - half_r_center; filling_height];
       [half_r_center; - half_r_center; filling_height];
       [qc 1 2; - half_r_center; filling_height];
       [r_center; - r_center; filling_height];
       [half_r_center; - r_center; filling_height];
       [qc 1 2; - r_center; filling_height];
       [aux_column_width; - (qc 1 2); ctps_mid_height_top];
       [seperator_distance; - (qc 1 2); ctps_mid_height_top];
       [qc 1 2; - (qc 1 2); ctps_mid_height_top];
       [aux_column_width; - seperator_distance; ctps_mid_height_top];
       [seperator_distance; - seperator_distance; ctps_mid_height_top];
       [qc 1 2; - seperator_distance; ctps_mid_height_top];
       [branch_thickness; - branch_thickness; ctps_mid_height_top];
       [seperator_distance; - aux_column_width; ctps_mid_height_top];
       [qc 1 2; - aux_column_width; ctps_mid_height_top];
       [aux_column_width; - (qc 1 2); 1];
       [seperator_distance; - (qc 1 2); 1];
       [qc 1 2; - (qc 1 2); 1];
       [aux_column_width; - seperator_distance; 1];
       [seperator_distance; - seperator_distance; 1];
       [qc 1 2; - seperator_distance; 1];
       [branch_thickness; - branch_thickness; 1];
       [seperator_distance; - aux_column_width; 1];
       [qc 1 2; - aux_column_width; 1]]) in
  let branch_x_max_y_max_ctps := (* 430-472 *)
      (shift [qc 1 2; qc 1 2; 0]
      [[r_center; r_center; filling_height];
       [half_r_center; r_center; filling_height];
       [qc 1 2; r_center; filling_height];
       [r_center; half_r_center; filling_height];
       [half_r_center; half_r_center; filling_height];
       [qc 1 2; half_r_center; filling_height];
       [r_center; qc 1 2; filling_height];
       [half_r_center; qc 1 2; filling_height];
       [qc 1 2; qc 1 2; filling_height];
       [branch_thickness; branch_thickness; ctps_mid_height_top];
       [seperator_distance; aux_column_width; ctps_mid_height_top];
       [qc 1 2; aux_column_width; ctps_mid_height_top];
       [aux_column_width; seperator_distance; ctps_mid_height_top];
       [seperator_distance; seperator_distance; ctps_mid_height_top];
       [qc 1 2; seperator_distance; ctps_mid_height_top];
       [aux_column_width; qc 1 2; ctps_mid_height_top];
       [seperator_distance; qc 1 2; ctps_mid_height_top];
       [qc 1 2; qc 1 2; ctps_mid_height_top];
       [branch_thickness; branch_thickness; 1];
       [seperator_distance; aux_column_width; 1];
       [qc 1 2; aux_column_width; 1];
       [aux_column_width; seperator_distance; 1];
       [seperator_distance; seperator_distance; 1];
       [qc 1 2; seperator_distance; 1];
       [aux_column_width; qc 1 2; 1];
       [seperator_distance; qc 1 2; 1];
       [qc 1 2; qc 1 2; 1]]) in
  [bez [2%nat; 1%nat; 2%nat] (* 151-156 *)
      branch_neighbor_x_min_ctps;
   bez [2%nat; 1%nat; 2%nat] (* 189-194 *)
      branch_neighbor_x_max_ctps;
   bez [1%nat; 2%nat; 2%nat] (* 231-236 *)
      branch_neighbor_y_min_ctps;
   bez [1%nat; 2%nat; 2%nat] (* 269-274 *)
      branch_neighbor_y_max_ctps;
   bez [2%nat; 2%nat; 2%nat] (* 324-328 *)
      branch_x_min_y_min_ctps;
   bez [2%nat; 2%nat; 2%nat] (* 374-378 *)
      branch_x_min_y_max_ctps;
   bez [2%nat; 2%nat; 2%nat] (* 424-428 *)
      branch_x_max_y_min_ctps;
   bez [2%nat; 2%nat; 2%nat] (* 474-478 *)
      branch_x_max_y_max_ctps])%Qc.

(** inverse_cross_3d.py 484-883: the tile that closes z_max. *)
Definition inverse_z_max (filling_height inv_filling_height ctps_mid_height_top ctps_mid_height_bottom center_width r_center half_r_center aux_column_width seperator_distance branch_thickness : Qc) : tile := (
  let branch_neighbor_x_min_ctps := (* 484-521 *)
      (shift [qc 1 2; qc 1 2; 0]
      [[- (qc 1 2); - aux_column_width; 0];
       [- seperator_distance; - aux_column_width; 0];
       [- branch_thickness; - branch_thickness; 0];
       [- (qc 1 2); aux_column_width; 0];
       [- seperator_distance; aux_column_width; 0];
       [- branch_thickness; branch_thickness; 0];
       [- (qc 1 2); - aux_column_width; ctps_mid_height_bottom];
       [- seperator_distance; - aux_column_width; ctps_mid_height_bottom];
       [- branch_thickness; - branch_thickness; ctps_mid_height_bottom];
       [- (qc 1 2); aux_column_width; ctps_mid_height_bottom];
       [- seperator_distance; aux_column_width; ctps_mid_height_bottom];
       [- branch_thickness; branch_thickness; ctps_mid_height_bottom];
       [- (qc 1 2); - r_center; inv_filling_height];
       [- half_r_center; - r_center; inv_filling_height];
       [- r_center; - r_center; inv_filling_height];
       [- (qc 1 2); r_center; inv_filling_height];
       [- half_r_center; r_center; inv_filling_height];
       [- r_center; r_center; inv_filling_height]]) in
  let branch_neighbor_x_max_ctps := (* 530-567 *)
      (shift [qc 1 2; qc 1 2; 0]
      [[branch_thickness; - branch_thickness; 0];
       [seperator_distance; - aux_column_width; 0];
       [qc 1 2; - aux_column_width; 0];
       [branch_thickness; branch_thickness; 0];
       [seperator_distance; aux_column_width; 0];
       [qc 1 2; aux_column_width; 0];
       [branch_thickness; - branch_thickness; ctps_mid_height_bottom];
       [seperator_distance; - aux_column_width; ctps_mid_height_bottom];
       [qc 1 2; - aux_column_width; ctps_mid_height_bottom];
       [branch_thickness; branch_thickness; ctps_mid_height_bottom];
       [seperator_distance; aux_column_width; ctps_mid_height_bottom];
       [qc 1 2; aux_column_width; ctps_mid_height_bottom];
       [r_center; - r_center; inv_filling_height];
       [half_r_center; - r_center; inv_filling_height];
       [qc 1 2; - r_center; inv_filling_height];
       [r_center; r_center; inv_filling_height];
       [half_r_center; r_center; inv_filling_height];
       [qc 1 2; r_center; inv_filling_height]]) in
  let branch_neighbor_y_min_ctps := (* 576-613 *)
      (shift [qc 1 2; qc 1 2; 0]
      [[- aux_column_width; - (qc 1 2); 0];
       [aux_column_width; - (qc 1 2); 0];
       [- aux_column_width; - seperator_distance; 0];
       [aux_column_width; - seperator_distance; 0];
       [- branch_thickness; - branch_thickness; 0];
       [branch_thickness; - branch_thickness; 0];
       [- aux_column_width; - (qc 1 2); ctps_mid_height_bottom];
       [aux_column_width; - (qc 1 2); ctps_mid_height_bottom];
       [- aux_column_width; - seperator_distance; ctps_mid_height_bottom];
       [aux_column_width; - seperator_distance; ctps_mid_height_bottom];
       [- branch_thickness; - branch_thickness; ctps_mid_height_bottom];
       [branch_thickness; - branch_thickness; ctps_mid_height_bottom];
       [- r_center; - (qc 1 2); inv_filling_height];
       [r_center; - (qc 1 2); inv_filling_height];
       [- r_center; - half_r_center; inv_filling_height];
       [r_center; - half_r_center; inv_filling_height];
       [- r_center; - r_center; inv_filling_height];
       [r_center; - r_center; inv_filling_height]]) in
  let branch_neighbor_y_max_ctps := (* 622-659 *)
      (shift [qc 1 2; qc 1 2; 0]
      [[- branch_thickness; branch_thickness; 0];
       [branch_thickness; branch_thickness; 0];
       [- aux_column_width; seperator_distance; 0];
       [aux_column_width; seperator_distance; 0];
       [- aux_column_width; qc 1 2; 0];
       [aux_column_width; qc 1 2; 0];
       [- branch_thickness; branch_thickness; ctps_mid_height_bottom];
       [branch_thickness; branch_thickness; ctps_mid_height_bottom];
       [- aux_column_width; seperator_distance; ctps_mid_height_bottom];
       [aux_column_width; seperator_distance; ctps_mid_height_bottom];
       [- aux_column_width; qc 1 2; ctps_mid_height_bottom];
       [aux_column_width; qc 1 2; ctps_mid_height_bottom];
       [- r_center; r_center; inv_filling_height];
       [r_center; r_center; inv_filling_height];
       [- r_center; half_r_center; inv_filling_height];
       [r_center; half_r_center; inv_filling_height];
       [- r_center; qc 1 2; inv_filling_height];
       [r_center; qc 1 2; inv_filling_height]]) in
  let branch_x_min_y_min_ctps := (* 668-714 *)
      (shift [qc 1 2; qc 1 2; 0]
      [[- (qc 1 2); - (qc 1 2); 0];
       [- seperator_distance; - (qc 1 2); 0];
       [- aux_column_width; - (qc 1 2); 0];
       [- (qc 1 2); - seperator_distance; 0];
       [- seperator_distance; - seperator_distance; 0];
       [- aux_column_width; - seperator_distance; 0];
       [- (qc 1 2); - aux_column_width; 0];
       [- seperator_distance; - aux_column_width; 0];
       [- branch_thickness; - branch_thickness; 0];
       [- (qc 1 2); - (qc 1 2); ctps_mid_height_bottom];
       [- seperator_distance; - (qc 1 2); ctps_mid_height_bottom];
       [- aux_column_width; - (qc 1 2); ctps_mid_height_bottom];
       [- (qc 1 2); - seperator_distance; ctps_mid_height_bottom];
       [- seperator_distance; - seperator_distance; ctps_mid_height_bottom];
       [- aux_column_width; - seperator_distance; ctps_mid_height_bottom];
       [- (qc 1 2); - aux_column_width; ctps_mid_height_bottom];
       [- seperator_distance; - aux_column_width; ctps_mid_height_bottom];
       [- branch_thickness; - branch_thickness; ctps_mid_height_bottom];
       [- (qc 1 2); - (qc 1 2); inv_filling_height];
       [- half_r_center; - (qc 1 2); inv_filling_height];
       [- r_center; - (qc 1 2); inv_filling_height];
       [- (qc 1 2); - half_r_center; inv_filling_height];
       [- half_r_center; - half_r_center; inv_filling_height];
       [- r_center; - half_r_center; inv_filling_height];
       [- (qc 1 2); - r_center; inv_filling_height];
       [- half_r_center; - r_center; inv_filling_height];
       [- r_center; - r_center; inv_filling_height]]) in
  let branch_x_max_y_max_ctps := (* 722-768 *)
      (shift [qc 1 2; qc 1 2; 0]
      [[branch_thickness; branch_thickness; 0];
       [seperator_distance; aux_column_width; 0];
       [qc 1 2; aux_column_width; 0];
       [aux_column_width; seperator_distance; 0];
       [seperator_distance; seperator_distance; 0];
       [qc 1 2; seperator_distance; 0];
       [aux_column_width; qc 1 2; 0];
       [seperator_distance; qc 1 2; 0];
       [qc 1 2; qc 1 2; 0];
       [branch_thickness; branch_thickness; ctps_mid_height_bottom];
       [seperator_distance; aux_column_width; ctps_mid_height_bottom];
       [qc 1 2; aux_column_width; ctps_mid_height_bottom];
       [aux_column_width; seperator_distance; ctps_mid_height_bottom];
       [seperator_distance; seperator_distance; ctps_mid_height_bottom];
       [qc 1 2; seperator_distance; ctps_mid_height_bottom];
       [aux_column_width; qc 1 2; ctps_mid_height_bottom];
       [seperator_distance; qc 1 2; ctps_mid_height_bottom];
       [qc 1 2; qc 1 2; ctps_mid_height_bottom];
       [r_center; r_center; inv_filling_height];
       [half_r_center; r_center; inv_filling_height];
       [qc 1 2; r_center; inv_filling_height];
       [r_center; half_r_center; inv_filling_height];
       [half_r_center; half_r_center; inv_filling_height];
       [qc 1 2; half_r_center; inv_filling_height];
       [r_center; qc 1 2; inv_filling_height];
       [half_r_center; qc 1 2; inv_filling_height];
       [qc 1 2; qc 1 2; inv_filling_height]]) in
  let branch_x_max_y_min_ctps := (* 776-822 *)
      (shift [qc 1 2; qc 1 2; 0]
      [[aux_column_width; - (qc 1 2); 0];
       [seperator_distance; - (qc 1 2); 0];
       [qc 1 2; - (qc 1 2); 0];
       [aux_column_width; - seperator_distance; 0];
       [seperator_distance; - seperator_distance; 0];
       [qc 1 2; - seperator_distance; 0];
       [branch_thickness; - branch_thickness; 0];
       [seperator_distance; - aux_column_width; 0];
       [qc 1 2; - aux_column_width; 0];
       [aux_column_width; - (qc 1 2); ctps_mid_height_bottom];
       [seperator_distance; - (qc 1 2); ctps_mid_height_bottom];
       [qc 1 2; - (qc 1 2); ctps_mid_height_bottom];
       [aux_column_width; - seperator_distance; ctps_mid_height_bottom];
       [seperator_distance; - seperator_distance; ctps_mid_height_bottom];
       [qc 1 2; - seperator_distance; ctps_mid_height_bottom];
       [branch_thickness; - branch_thickness; ctps_mid_height_bottom];
       [seperator_distance; - aux_column_width; ctps_mid_height_bottom];
       [qc 1 2; - aux_column_width; ctps_mid_height_bottom];
       [r_center; - (qc 1 2); inv_filling_height];
       [half_r_center; - (qc 1 2); inv_filling_height];
       [qc 1 2; - (qc 1 2); inv_filling_height];
       [r_center; - half_r_center; inv_filling_height];
       [half_r_center; - half_r_center; inv_filling_height];
       [qc 1 2; - half_r_center; inv_filling_height];
       [r_center; - r_center; inv_filling_height];
       [half_r_center; - r_center; inv_filling_height];
       [qc 1 2; - r_center; inv_filling_height]]) in
  let branch_x_min_y_max_ctps := (* 830-876 *)
      (shift [qc 1 2; qc 1 2; 0]
      [[- (qc 1 2); aux_column_width; 0];
       [- seperator_distance; aux_column_width; 0];
       [- branch_thickness; branch_thickness; 0];
       [- (qc 1 2); seperator_distance; 0];
       [- seperator_distance; seperator_distance; 0];
       [- aux_column_width; seperator_distance; 0];
       [- (qc 1 2); qc 1 2; 0];
       [- seperator_distance; qc 1 2; 0];
       [- aux_column_width; qc 1 2; 0];
       [- (qc 1 2); aux_column_width; ctps_mid_height_bottom];
       [- seperator_distance; aux_column_width; ctps_mid_height_bottom];
       [- branch_thickness; branch_thickness; ctps_mid_height_bottom];
       [- (qc 1 2); seperator_distance; ctps_mid_height_bottom];
       [- seperator_distance; seperator_distance; ctps_mid_height_bottom];
       [- aux_column_width; seperator_distance; ctps_mid_height_bottom];
       [- (qc 1 2); qc 1 2; ctps_mid_height_bottom];
       [- seperator_distance; qc 1 2; ctps_mid_height_bottom];
       [- aux_column_width; qc 1 2; ctps_mid_height_bottom];
       [- (qc 1 2); r_center; inv_filling_height];
       [- half_r_center; r_center; inv_filling_height];
       [- r_center; r_center; inv_filling_height];
       [- (qc 1 2); half_r_center; inv_filling_height];
       [- half_r_center; half_r_center; inv_filling_height];
       [- r_center; half_r_center; inv_filling_height];
       [- (qc 1 2); qc 1 2; inv_filling_height];
       [- half_r_center; qc 1 2; inv_filling_height];
       [- r_center; qc 1 2; inv_filling_height]]) in
  [bez [2%nat; 1%nat; 2%nat] (* 523-528 *)
      branch_neighbor_x_min_ctps;
   bez [2%nat; 1%nat; 2%nat] (* 569-574 *)
      branch_neighbor_x_max_ctps;
   bez [1%nat; 2%nat; 2%nat] (* 615-620 *)
      branch_neighbor_y_min_ctps;
   bez [1%nat; 2%nat; 2%nat] (* 661-666 *)
      branch_neighbor_y_max_ctps;
   bez [2%nat; 2%nat; 2%nat] (* 716-720 *)
      branch_x_min_y_min_ctps;
   bez [2%nat; 2%nat; 2%nat] (* 770-774 *)
      branch_x_max_y_max_ctps;
   bez [2%nat; 2%nat; 2%nat] (* 824-828 *)
      branch_x_max_y_min_ctps;
   bez [2%nat; 2%nat; 2%nat] (* 878-882 *)
      branch_x_min_y_max_ctps])%Qc.

(** inverse_cross_3d.py 1003-1614. *)
Definition inverse_splines (seperator_distance center_r hd_center aux_column_width x_min_r x_max_r y_min_r y_max_r z_min_r z_max_r aux_x_min aux_x_max aux_y_min aux_y_max aux_z_min aux_z_max : Qc) : tile := (
  let x_min_y_min := (* 1004-1025 *)
      (shift [qc 1 2; qc 1 2; qc 1 2]
      [[- (qc 1 2); - (qc 1 2); - aux_column_width];
       [- seperator_distance; - (qc 1 2); - aux_column_width];
       [- y_min_r; - (qc 1 2); - y_min_r];
       [- (qc 1 2); - seperator_distance; - aux_column_width];
       [- hd_center; - hd_center; - aux_column_width];
       [- aux_y_min; - hd_center; - aux_y_min];
       [- (qc 1 2); - x_min_r; - x_min_r];
       [- hd_center; - aux_x_min; - aux_x_min];
       [- center_r; - center_r; - center_r];
       [- (qc 1 2); - (qc 1 2); aux_column_width];
       [- seperator_distance; - (qc 1 2); aux_column_width];
       [- y_min_r; - (qc 1 2); y_min_r];
       [- (qc 1 2); - seperator_distance; aux_column_width];
       [- hd_center; - hd_center; aux_column_width];
       [- aux_y_min; - hd_center; aux_y_min];
       [- (qc 1 2); - x_min_r; x_min_r];
       [- hd_center; - aux_x_min; aux_x_min];
       [- center_r; - center_r; center_r]]) in
  let x_max_y_min := (* 1031-1052 *)
      (shift [qc 1 2; qc 1 2; qc 1 2]
      [[y_min_r; - (qc 1 2); - y_min_r];
       [seperator_distance; - (qc 1 2); - aux_column_width];
       [qc 1 2; - (qc 1 2); - aux_column_width];
       [aux_y_min; - hd_center; - aux_y_min];
       [hd_center; - hd_center; - aux_column_width];
       [qc 1 2; - seperator_distance; - aux_column_width];
       [center_r; - center_r; - center_r];
       [hd_center; - aux_x_max; - aux_x_max];
       [qc 1 2; - x_max_r; - x_max_r];
       [y_min_r; - (qc 1 2); y_min_r];
       [seperator_distance; - (qc 1 2); aux_column_width];
       [qc 1 2; - (qc 1 2); aux_column_width];
       [aux_y_min; - hd_center; aux_y_min];
       [hd_center; - hd_center; aux_column_width];
       [qc 1 2; - seperator_distance; aux_column_width];
       [center_r; - center_r; center_r];
       [hd_center; - aux_x_max; aux_x_max];
       [qc 1 2; - x_max_r; x_max_r]]) in
  let x_min_y_max := (* 1058-1079 *)
      (shift [qc 1 2; qc 1 2; qc 1 2]
      [[- (qc 1 2); x_min_r; - x_min_r];
       [- hd_center; aux_x_min; - aux_x_min];
       [- center_r; center_r; - center_r];
       [- (qc 1 2); seperator_distance; - aux_column_width];
       [- hd_center; hd_center; - aux_column_width];
       [- aux_y_max; hd_center; - aux_y_max];
       [- (qc 1 2); qc 1 2; - aux_column_width];
       [- seperator_distance; qc 1 2; - aux_column_width];
       [- y_max_r; qc 1 2; - y_max_r];
       [- (qc 1 2); x_min_r; x_min_r];
       [- hd_center; aux_x_min; aux_x_min];
       [- center_r; center_r; center_r];
       [- (qc 1 2); seperator_distance; aux_column_width];
       [- hd_center; hd_center; aux_column_width];
       [- aux_y_max; hd_center; aux_y_max];
       [- (qc 1 2); qc 1 2; aux_column_width];
       [- seperator_distance; qc 1 2; aux_column_width];
       [- y_max_r; qc 1 2; y_max_r]]) in
  let x_max_y_max := (* 1085-1106 *)
      (shift [qc 1 2; qc 1 2; qc 1 2]
      [[center_r; center_r; - center_r];
       [hd_center; aux_x_max; - aux_x_max];
       [qc 1 2; x_max_r; - x_max_r];
       [aux_y_max; hd_center; - aux_y_max];
       [hd_center; hd_center; - aux_column_width];
       [qc 1 2; seperator_distance; - aux_column_width];
       [y_max_r; qc 1 2; - y_max_r];
       [seperator_distance; qc 1 2; - aux_column_width];
       [qc 1 2; qc 1 2; - aux_column_width];
       [center_r; center_r; center_r];
       [hd_center; aux_x_max; aux_x_max];
       [qc 1 2; x_max_r; x_max_r];
       [aux_y_max; hd_center; aux_y_max];
       [hd_center; hd_center; aux_column_width];
       [qc 1 2; seperator_distance; aux_column_width];
       [y_max_r; qc 1 2; y_max_r];
       [seperator_distance; qc 1 2; aux_column_width];
       [qc 1 2; qc 1 2; aux_column_width]]) in
  let x_min_z_min := (* 1112-1133 *)
      (shift [qc 1 2; qc 1 2; qc 1 2]
      [[- (qc 1 2); - aux_column_width; - (qc 1 2)];
       [- seperator_distance; - aux_column_width; - (qc 1 2)];
       [- z_min_r; - z_min_r; - (qc 1 2)];
       [- (qc 1 2); aux_column_width; - (qc 1 2)];
       [- seperator_distance; aux_column_width; - (qc 1 2)];
       [- z_min_r; z_min_r; - (qc 1 2)];
       [- (qc 1 2); - aux_column_width; - seperator_distance];
       [- hd_center; - aux_column_width; - hd_center];
       [- aux_z_min; - aux_z_min; - hd_center];
       [- (qc 1 2); aux_column_width; - seperator_distance];
       [- hd_center; aux_column_width; - hd_center];
       [- aux_z_min; aux_z_min; - hd_center];
       [- (qc 1 2); - x_min_r; - x_min_r];
       [- hd_center; - aux_x_min; - aux_x_min];
       [- center_r; - center_r; - center_r];
       [- (qc 1 2); x_min_r; - x_min_r];
       [- hd_center; aux_x_min; - aux_x_min];
       [- center_r; center_r; - center_r]]) in
  let x_max_z_min := (* 1139-1160 *)
      (shift [qc 1 2; qc 1 2; qc 1 2]
      [[z_min_r; - z_min_r; - (qc 1 2)];
       [seperator_distance; - aux_column_width; - (qc 1 2)];
       [qc 1 2; - aux_column_width; - (qc 1 2)];
       [z_min_r; z_min_r; - (qc 1 2)];
       [seperator_distance; aux_column_width; - (qc 1 2)];
       [qc 1 2; aux_column_width; - (qc 1 2)];
       [aux_z_min; - aux_z_min; - hd_center];
       [hd_center; - aux_column_width; - hd_center];
       [qc 1 2; - aux_column_width; - seperator_distance];
       [aux_z_min; aux_z_min; - hd_center];
       [hd_center; aux_column_width; - hd_center];
       [qc 1 2; aux_column_width; - seperator_distance];
       [center_r; - center_r; - center_r];
       [hd_center; - aux_x_max; - aux_x_max];
       [qc 1 2; - x_max_r; - x_max_r];
       [center_r; center_r; - center_r];
       [hd_center; aux_x_max; - aux_x_max];
       [qc 1 2; x_max_r; - x_max_r]]) in
  let x_min_z_max := (* 1166-1187 *)
      (shift [qc 1 2; qc 1 2; qc 1 2]
      [[- (qc 1 2); - x_min_r; x_min_r];
       [- hd_center; - aux_x_min; aux_x_min];
       [- center_r; - center_r; center_r];
       [- (qc 1 2); x_min_r; x_min_r];
       [- hd_center; aux_x_min; aux_x_min];
       [- center_r; center_r; center_r];
       [- (qc 1 2); - aux_column_width; seperator_distance];
       [- hd_center; - aux_column_width; hd_center];
       [- aux_z_max; - aux_z_max; hd_center];
       [- (qc 1 2); aux_column_width; seperator_distance];
       [- hd_center; aux_column_width; hd_center];
       [- aux_z_max; aux_z_max; hd_center];
       [- (qc 1 2); - aux_column_width; qc 1 2];
       [- seperator_distance; - aux_column_width; qc 1 2];
       [- z_max_r; - z_max_r; qc 1 2];
       [- (qc 1 2); aux_column_width; qc 1 2];
       [- seperator_distance; aux_column_width; qc 1 2];
       [- z_max_r; z_max_r; qc 1 2]]) in
  let x_max_z_max := (* 1193-1214 *)
      (shift [qc 1 2; qc 1 2; qc 1 2]
      [[center_r; - center_r; center_r];
       [hd_center; - aux_x_max; aux_x_max];
       [qc 1 2; - x_max_r; x_max_r];
       [center_r; center_r; center_r];
       [hd_center; aux_x_max; aux_x_max];
       [qc 1 2; x_max_r; x_max_r];
       [aux_z_max; - aux_z_max; hd_center];
       [hd_center; - aux_column_width; hd_center];
       [qc 1 2; - aux_column_width; seperator_distance];
       [aux_z_max; aux_z_max; hd_center];
       [hd_center; aux_column_width; hd_center];
       [qc 1 2; aux_column_width; seperator_distance];
       [z_max_r; - z_max_r; qc 1 2];
       [seperator_distance; - aux_column_width; qc 1 2];
       [qc 1 2; - aux_column_width; qc 1 2];
       [z_max_r; z_max_r; qc 1 2];
       [seperator_distance; aux_column_width; qc 1 2];
       [qc 1 2; aux_column_width; qc 1 2]]) in
  let y_min_z_min := (* 1220-1241 *)
      (shift [qc 1 2; qc 1 2; qc 1 2]
      [[- aux_column_width; - (qc 1 2); - (qc 1 2)];
       [aux_column_width; - (qc 1 2); - (qc 1 2)];
       [- aux_column_width; - seperator_distance; - (qc 1 2)];
       [aux_column_width; - seperator_distance; - (qc 1 2)];
       [- z_min_r; - z_min_r; - (qc 1 2)];
       [z_min_r; - z_min_r; - (qc 1 2)];
       [- aux_column_width; - (qc 1 2); - seperator_distance];
       [aux_column_width; - (qc 1 2); - seperator_distance];
       [- aux_column_width; - hd_center; - hd_center];
       [aux_column_width; - hd_center; - hd_center];
       [- aux_z_min; - aux_z_min; - hd_center];
       [aux_z_min; - aux_z_min; - hd_center];
       [- y_min_r; - (qc 1 2); - y_min_r];
       [y_min_r; - (qc 1 2); - y_min_r];
       [- aux_y_min; - hd_center; - aux_y_min];
       [aux_y_min; - hd_center; - aux_y_min];
       [- center_r; - center_r; - center_r];
       [center_r; - center_r; - center_r]]) in
  let y_max_z_min := (* 1247-1268 *)
      (shift [qc 1 2; qc 1 2; qc 1 2]
      [[- z_min_r; z_min_r; - (qc 1 2)];
       [z_min_r; z_min_r; - (qc 1 2)];
       [- aux_column_width; seperator_distance; - (qc 1 2)];
       [aux_column_width; seperator_distance; - (qc 1 2)];
       [- aux_column_width; qc 1 2; - (qc 1 2)];
       [aux_column_width; qc 1 2; - (qc 1 2)];
       [- aux_z_min; aux_z_min; - hd_center];
       [aux_z_min; aux_z_min; - hd_center];
       [- aux_column_width; hd_center; - hd_center];
       [aux_column_width; hd_center; - hd_center];
       [- aux_column_width; qc 1 2; - seperator_distance];
       [aux_column_width; qc 1 2; - seperator_distance];
       [- center_r; center_r; - center_r];
       [center_r; center_r; - center_r];
       [- aux_y_max; hd_center; - aux_y_max];
       [aux_y_max; hd_center; - aux_y_max];
       [- y_max_r; qc 1 2; - y_max_r];
       [y_max_r; qc 1 2; - y_max_r]]) in
  let y_min_z_max := (* 1274-1295 *)
      (shift [qc 1 2; qc 1 2; qc 1 2]
      [[- y_min_r; - (qc 1 2); y_min_r];
       [y_min_r; - (qc 1 2); y_min_r];
       [- aux_y_min; - hd_center; aux_y_min];
       [aux_y_min; - hd_center; aux_y_min];
       [- center_r; - center_r; center_r];
       [center_r; - center_r; center_r];
       [- aux_column_width; - (qc 1 2); seperator_distance];
       [aux_column_width; - (qc 1 2); seperator_distance];
       [- aux_column_width; - hd_center; hd_center];
       [aux_column_width; - hd_center; hd_center];
       [- aux_z_max; - aux_z_max; hd_center];
       [aux_z_max; - aux_z_max; hd_center];
       [- aux_column_width; - (qc 1 2); qc 1 2];
       [aux_column_width; - (qc 1 2); qc 1 2];
       [- aux_column_width; - seperator_distance; qc 1 2];
       [aux_column_width; - seperator_distance; qc 1 2];
       [- z_max_r; - z_max_r; qc 1 2];
       [z_max_r; - z_max_r; qc 1 2]]) in
  let y_max_z_max := (* 1301-1322 *)
      (shift [qc 1 2; qc 1 2; qc 1 2]
      [[- center_r; center_r; center_r];
       [center_r; center_r; center_r];
       [- aux_y_max; hd_center; aux_y_max];
       [aux_y_max; hd_center; aux_y_max];
       [- y_max_r; qc 1 2; y_max_r];
       [y_max_r; qc 1 2; y_max_r];
       [- aux_z_max; aux_z_max; hd_center];
       [aux_z_max; aux_z_max; hd_center];
       [- aux_column_width; hd_center; hd_center];
       [aux_column_width; hd_center; hd_center];
       [- aux_column_width; qc 1 2; seperator_distance];
       [aux_column_width; qc 1 2; seperator_distance];
       [- z_max_r; z_max_r; qc 1 2];
       [z_max_r; z_max_r; qc 1 2];
       [- aux_column_width; seperator_distance; qc 1 2];
       [aux_column_width; seperator_distance; qc 1 2];
       [- aux_column_width; qc 1 2; qc 1 2];
       [aux_column_width; qc 1 2; qc 1 2]]) in
  let x_min_y_min_z_min := (* 1328-1358 *)
      (shift [qc 1 2; qc 1 2; qc 1 2]
      [[- (qc 1 2); - (qc 1 2); - (qc 1 2)];
       [- seperator_distance; - (qc 1 2); - (qc 1 2)];
       [- aux_column_width; - (qc 1 2); - (qc 1 2)];
       [- (qc 1 2); - seperator_distance; - (qc 1 2)];
       [- seperator_distance; - seperator_distance; - (qc 1 2)];
       [- aux_column_width; - seperator_distance; - (qc 1 2)];
       [- (qc 1 2); - aux_column_width; - (qc 1 2)];
       [- seperator_distance; - aux_column_width; - (qc 1 2)];
       [- z_min_r; - z_min_r; - (qc 1 2)];
       [- (qc 1 2); - (qc 1 2); - seperator_distance];
       [- seperator_distance; - (qc 1 2); - seperator_distance];
       [- aux_column_width; - (qc 1 2); - seperator_distance];
       [- (qc 1 2); - seperator_distance; - seperator_distance];
       [- hd_center; - hd_center; - hd_center];
       [- aux_column_width; - hd_center; - hd_center];
       [- (qc 1 2); - aux_column_width; - seperator_distance];
       [- hd_center; - aux_column_width; - hd_center];
       [- aux_z_min; - aux_z_min; - hd_center];
       [- (qc 1 2); - (qc 1 2); - aux_column_width];
       [- seperator_distance; - (qc 1 2); - aux_column_width];
       [- y_min_r; - (qc 1 2); - y_min_r];
       [- (qc 1 2); - seperator_distance; - aux_column_width];
       [- hd_center; - hd_center; - aux_column_width];
       [- aux_y_min; - hd_center; - aux_y_min];
       [- (qc 1 2); - x_min_r; - x_min_r];
       [- hd_center; - aux_x_min; - aux_x_min];
       [- center_r; - center_r; - center_r]]) in
  let x_max_y_min_z_min := (* 1364-1394 *)
      (shift [qc 1 2; qc 1 2; qc 1 2]
      [[aux_column_width; - (qc 1 2); - (qc 1 2)];
       [seperator_distance; - (qc 1 2); - (qc 1 2)];
       [qc 1 2; - (qc 1 2); - (qc 1 2)];
       [aux_column_width; - seperator_distance; - (qc 1 2)];
       [seperator_distance; - seperator_distance; - (qc 1 2)];
       [qc 1 2; - seperator_distance; - (qc 1 2)];
       [z_min_r; - z_min_r; - (qc 1 2)];
       [seperator_distance; - aux_column_width; - (qc 1 2)];
       [qc 1 2; - aux_column_width; - (qc 1 2)];
       [aux_column_width; - (qc 1 2); - seperator_distance];
       [seperator_distance; - (qc 1 2); - seperator_distance];
       [qc 1 2; - (qc 1 2); - seperator_distance];
       [aux_column_width; - hd_center; - hd_center];
       [hd_center; - hd_center; - hd_center];
       [qc 1 2; - seperator_distance; - seperator_distance];
       [aux_z_min; - aux_z_min; - hd_center];
       [hd_center; - aux_column_width; - hd_center];
       [qc 1 2; - aux_column_width; - seperator_distance];
       [y_min_r; - (qc 1 2); - y_min_r];
       [seperator_distance; - (qc 1 2); - aux_column_width];
       [qc 1 2; - (qc 1 2); - aux_column_width];
       [aux_y_min; - hd_center; - aux_y_min];
       [hd_center; - hd_center; - aux_column_width];
       [qc 1 2; - seperator_distance; - aux_column_width];
       [center_r; - center_r; - center_r];
       [hd_center; - aux_x_max; - aux_x_max];
       [qc 1 2; - x_max_r; - x_max_r]]) in
  let x_min_y_max_z_min := (* 1400-1430 *)
      (shift [qc 1 2; qc 1 2; qc 1 2]
      [[- (qc 1 2); aux_column_width; - (qc 1 2)];
       [- seperator_distance; aux_column_width; - (qc 1 2)];
       [- z_min_r; z_min_r; - (qc 1 2)];
       [- (qc 1 2); seperator_distance; - (qc 1 2)];
       [- seperator_distance; seperator_distance; - (qc 1 2)];
       [- aux_column_width; seperator_distance; - (qc 1 2)];
       [- (qc 1 2); qc 1 2; - (qc 1 2)];
       [- seperator_distance; qc 1 2; - (qc 1 2)];
       [- aux_column_width; qc 1 2; - (qc 1 2)];
       [- (qc 1 2); aux_column_width; - seperator_distance];
       [- hd_center; aux_column_width; - hd_center];
       [- aux_z_min; aux_z_min; - hd_center];
       [- (qc 1 2); seperator_distance; - seperator_distance];
       [- hd_center; hd_center; - hd_center];
       [- aux_column_width; hd_center; - hd_center];
       [- (qc 1 2); qc 1 2; - seperator_distance];
       [- seperator_distance; qc 1 2; - seperator_distance];
       [- aux_column_width; qc 1 2; - seperator_distance];
       [- (qc 1 2); x_min_r; - x_min_r];
       [- hd_center; aux_x_min; - aux_x_min];
       [- center_r; center_r; - center_r];
       [- (qc 1 2); seperator_distance; - aux_column_width];
       [- hd_center; hd_center; - aux_column_width];
       [- aux_y_max; hd_center; - aux_y_max];
       [- (qc 1 2); qc 1 2; - aux_column_width];
       [- seperator_distance; qc 1 2; - aux_column_width];
       [- y_max_r; qc 1 2; - y_max_r]]) in
  let x_max_y_max_z_min := (* 1436-1466 *)
      (shift [qc 1 2; qc 1 2; qc 1 2]
      [[z_min_r; z_min_r; - (qc 1 2)];
       [seperator_distance; aux_column_width; - (qc 1 2)];
       [qc 1 2; aux_column_width; - (qc 1 2)];
       [aux_column_width; seperator_distance; - (qc 1 2)];
       [seperator_distance; seperator_distance; - (qc 1 2)];
       [qc 1 2; seperator_distance; - (qc 1 2)];
       [aux_column_width; qc 1 2; - (qc 1 2)];
       [seperator_distance; qc 1 2; - (qc 1 2)];
       [qc 1 2; qc 1 2; - (qc 1 2)];
       [aux_z_min; aux_z_min; - hd_center];
       [hd_center; aux_column_width; - hd_center];
       [qc 1 2; aux_column_width; - seperator_distance];
       [aux_column_width; hd_center; - hd_center];
       [hd_center; hd_center; - hd_center];
       [qc 1 2; seperator_distance; - seperator_distance];
       [aux_column_width; qc 1 2; - seperator_distance];
       [seperator_distance; qc 1 2; - seperator_distance];
       [qc 1 2; qc 1 2; - seperator_distance];
       [center_r; center_r; - center_r];
       [hd_center; aux_x_max; - aux_x_max];
       [qc 1 2; x_max_r; - x_max_r];
       [aux_y_max; hd_center; - aux_y_max];
       [hd_center; hd_center; - aux_column_width];
       [qc 1 2; seperator_distance; - aux_column_width];
       [y_max_r; qc 1 2; - y_max_r];
       [seperator_distance; qc 1 2; - aux_column_width];
       [qc 1 2; qc 1 2; - aux_column_width]]) in
  let x_min_y_min_z_max := (* 1472-1502 *)
      (shift [qc 1 2; qc 1 2; qc 1 2]
      [[- (qc 1 2); - (qc 1 2); aux_column_width];
       [- seperator_distance; - (qc 1 2); aux_column_width];
       [- y_min_r; - (qc 1 2); y_min_r];
       [- (qc 1 2); - seperator_distance; aux_column_width];
       [- hd_center; - hd_center; aux_column_width];
       [- aux_y_min; - hd_center; aux_y_min];
       [- (qc 1 2); - x_min_r; x_min_r];
       [- hd_center; - aux_x_min; aux_x_min];
       [- center_r; - center_r; center_r];
       [- (qc 1 2); - (qc 1 2); seperator_distance];
       [- seperator_distance; - (qc 1 2); seperator_distance];
       [- aux_column_width; - (qc 1 2); seperator_distance];
       [- (qc 1 2); - seperator_distance; seperator_distance];
       [- hd_center; - hd_center; hd_center];
       [- aux_column_width; - hd_center; hd_center];
       [- (qc 1 2); - aux_column_width; seperator_distance];
       [- hd_center; - aux_column_width; hd_center];
       [- aux_z_max; - aux_z_max; hd_center];
       [- (qc 1 2); - (qc 1 2); qc 1 2];
       [- seperator_distance; - (qc 1 2); qc 1 2];
       [- aux_column_width; - (qc 1 2); qc 1 2];
       [- (qc 1 2); - seperator_distance; qc 1 2];
       [- seperator_distance; - seperator_distance; qc 1 2];
       [- aux_column_width; - seperator_distance; qc 1 2];
       [- (qc 1 2); - aux_column_width; qc 1 2];
       [- seperator_distance; - aux_column_width; qc 1 2];
       [- z_max_r; - z_max_r; qc 1 2]]) in
  let x_max_y_min_z_max := (* 1508-1538 *)
      (shift [qc 1 2; qc 1 2; qc 1 2]
      [[y_min_r; - (qc 1 2); y_min_r];
       [seperator_distance; - (qc 1 2); aux_column_width];
       [qc 1 2; - (qc 1 2); aux_column_width];
       [aux_y_min; - hd_center; aux_y_min];
       [hd_center; - hd_center; aux_column_width];
       [qc 1 2; - seperator_distance; aux_column_width];
       [center_r; - center_r; center_r];
       [hd_center; - aux_x_max; aux_x_max];
       [qc 1 2; - x_max_r; x_max_r];
       [aux_column_width; - (qc 1 2); seperator_distance];
       [seperator_distance; - (qc 1 2); seperator_distance];
       [qc 1 2; - (qc 1 2); seperator_distance];
       [aux_column_width; - hd_center; hd_center];
       [hd_center; - hd_center; hd_center];
       [qc 1 2; - seperator_distance; seperator_distance];
       [aux_z_max; - aux_z_max; hd_center];
       [hd_center; - aux_column_width; hd_center];
       [qc 1 2; - aux_column_width; seperator_distance];
       [aux_column_width; - (qc 1 2); qc 1 2];
       [seperator_distance; - (qc 1 2); qc 1 2];
       [qc 1 2; - (qc 1 2); qc 1 2];
       [aux_column_width; - seperator_distance; qc 1 2];
       [seperator_distance; - seperator_distance; qc 1 2];
       [qc 1 2; - seperator_distance; qc 1 2];
       [z_max_r; - z_max_r; qc 1 2];
       [seperator_distance; - aux_column_width; qc 1 2];
       [qc 1 2; - aux_column_width; qc 1 2]]) in
  let x_min_y_max_z_max := (* 1544-1574 *)
      (shift [qc 1 2; qc 1 2; qc 1 2]
      [[- (qc 1 2); x_min_r; x_min_r];
       [- hd_center; aux_x_min; aux_x_min];
       [- center_r; center_r; center_r];
       [- (qc 1 2); seperator_distance; aux_column_width];
       [- hd_center; hd_center; aux_column_width];
       [- aux_y_max; hd_center; aux_y_max];
       [- (qc 1 2); qc 1 2; aux_column_width];
       [- seperator_distance; qc 1 2; aux_column_width];
       [- y_max_r; qc 1 2; y_max_r];
       [- (qc 1 2); aux_column_width; seperator_distance];
       [- hd_center; aux_column_width; hd_center];
       [- aux_z_max; aux_z_max; hd_center];
       [- (qc 1 2); seperator_distance; seperator_distance];
       [- hd_center; hd_center; hd_center];
       [- aux_column_width; hd_center; hd_center];
       [- (qc 1 2); qc 1 2; seperator_distance];
       [- seperator_distance; qc 1 2; seperator_distance];
       [- aux_column_width; qc 1 2; seperator_distance];
       [- (qc 1 2); aux_column_width; qc 1 2];
       [- seperator_distance; aux_column_width; qc 1 2];
       [- z_max_r; z_max_r; qc 1 2];
       [- (qc 1 2); seperator_distance; qc 1 2];
       [- seperator_distance; seperator_distance; qc 1 2];
       [- aux_column_width; seperator_distance; qc 1 2];
       [- (qc 1 2); qc 1 2; qc 1 2];
       [- seperator_distance; qc 1 2; qc 1 2];
       [- aux_column_width; qc 1 2; qc 1 2]]) in
  let x_max_y_max_z_max := (* 1580-1610 *)
      (shift [qc 1 2; qc 1 2; qc 1 2]
      [[center_r; center_r; center_r];
       [hd_center; aux_x_max; aux_x_max];
       [qc 1 2; x_max_r; x_max_r];
       [aux_y_max; hd_center; aux_y_max];
       [hd_center; hd_center; aux_column_width];
       [qc 1 2; seperator_distance; aux_column_width];
       [y_max_r; qc 1 2; y_max_r];
       [seperator_distance; qc 1 2; aux_column_width];
       [qc 1 2; qc 1 2; aux_column_width];
       [aux_z_max; aux_z_max; hd_center];
       [hd_center; aux_column_width; hd_center];
       [qc 1 2; aux_column_width; seperator_distance];
       [aux_column_width; hd_center; hd_center];
       [hd_center; hd_center; hd_center];
       [qc 1 2; seperator_distance; seperator_distance];
       [aux_column_width; qc 1 2; seperator_distance];
       [seperator_distance; qc 1 2; seperator_distance];
       [qc 1 2; qc 1 2; seperator_distance];
       [z_max_r; z_max_r; qc 1 2];
       [seperator_distance; aux_column_width; qc 1 2];
       [qc 1 2; aux_column_width; qc 1 2];
       [aux_column_width; seperator_distance; qc 1 2];
       [seperator_distance; seperator_distance; qc 1 2];
       [qc 1 2; seperator_distance; qc 1 2];
       [aux_column_width; qc 1 2; qc 1 2];
       [seperator_distance; qc 1 2; qc 1 2];
       [qc 1 2; qc 1 2; qc 1 2]]) in
  [bez [2%nat; 2%nat; 1%nat] (* 1027-1029 *)
      x_min_y_min;
   bez [2%nat; 2%nat; 1%nat] (* 1054-1056 *)
      x_max_y_min;
   bez [2%nat; 2%nat; 1%nat] (* 1081-1083 *)
      x_min_y_max;
   bez [2%nat; 2%nat; 1%nat] (* 1108-1110 *)
      x_max_y_max;
   bez [2%nat; 1%nat; 2%nat] (* 1135-1137 *)
      x_min_z_min;
   bez [2%nat; 1%nat; 2%nat] (* 1162-1164 *)
      x_max_z_min;
   bez [2%nat; 1%nat; 2%nat] (* 1189-1191 *)
      x_min_z_max;
   bez [2%nat; 1%nat; 2%nat] (* 1216-1218 *)
      x_max_z_max;
   bez [1%nat; 2%nat; 2%nat] (* 1243-1245 *)
      y_min_z_min;
   bez [1%nat; 2%nat; 2%nat] (* 1270-1272 *)
      y_max_z_min;
   bez [1%nat; 2%nat; 2%nat] (* 1297-1299 *)
      y_min_z_max;
   bez [1%nat; 2%nat; 2%nat] (* 1324-1326 *)
      y_max_z_max;
   bez [2%nat; 2%nat; 2%nat] (* 1360-1362 *)
      x_min_y_min_z_min;
   bez [2%nat; 2%nat; 2%nat] (* 1396-1398 *)
      x_max_y_min_z_min;
   bez [2%nat; 2%nat; 2%nat] (* 1432-1434 *)
      x_min_y_max_z_min;
   bez [2%nat; 2%nat; 2%nat] (* 1468-1470 *)
      x_max_y_max_z_min;
   bez [2%nat; 2%nat; 2%nat] (* 1504-1506 *)
      x_min_y_min_z_max;
   bez [2%nat; 2%nat; 2%nat] (* 1540-1542 *)
      x_max_y_min_z_max;
   bez [2%nat; 2%nat; 2%nat] (* 1576-1578 *)
      x_min_y_max_z_max;
   bez [2%nat; 2%nat; 2%nat] (* 1612-1614 *)
      x_max_y_max_z_max])%Qc.

(** ** create_tile, 886-1615, and _closing_tile, 36-886 *)
(** 105-111 *)
Definition inverse_closing_value
    (f : Qc -> Qc -> Qc -> Qc -> Qc -> Qc -> Qc -> Qc -> Qc -> Qc -> tile) (bw fh sep branch : Qc) : tile :=
  let top := ((1 + fh) * qc 1 2)%Qc in
  let width := (1 - qc 2 1 * bw)%Qc in
  let r_center := (width * qc 1 2)%Qc in
  f fh (1 - fh)%Qc top (1 - top)%Qc width r_center ((r_center + qc 1 2) * qc 1 2)%Qc
    (qc 1 2 - qc 2 1 * (qc 1 2 - sep))%Qc sep branch.
(** 979-1002 *)
Definition inverse_value (ce sep : Qc) (p : array2) : tile :=
  let center_r := (mean6 p * ce)%Qc in
  inverse_splines sep center_r (qc 1 2 * (qc 1 2 + center_r))%Qc (qc 1 2 - qc 2 1 * (qc 1 2 - sep))%Qc
    (at2 p 0 0) (at2 p 1 0) (at2 p 2 0) (at2 p 3 0) (at2 p 4 0) (at2 p 5 0)
    (qmin (at2 p 0 0) center_r) (qmin (at2 p 1 0) center_r) (qmin (at2 p 2 0) center_r)
    (qmin (at2 p 3 0) center_r) (qmin (at2 p 4 0) center_r) (qmin (at2 p 5 0) center_r).
Definition inverse_create (ce : Qc) (sep : option Qc) (closure : option string) (bw fh : Qc)
    (params : option array2) (sens : option array3) : made :=
  if negb (qltb (qc 1 2) ce && qltb ce (qc 3 2)) then Raised ValueError
  else
    let sep := match sep with None => qc 3 10 | Some x => x end in
    let max_radius := qmin (qmin (qc 1 2) (qc 1 2 / ce)) sep in
    let min_radius := qmax (qc 1 2 - sep) 0 in
    let p := match params with None => full 6 1 (qc 1 5) | Some p => p end in
    match sens with
    | Some _ => Raised NotImplementedError
    | None =>
        if negb (check_params 6 1 p) then Raised TypeError
        else if existsb (fun x => qltb x min_radius) (concat p) || existsb (fun x => qltb max_radius x) (concat p) then Raised ValueError
        else
          match closure with
          | None => Made (inverse_value ce sep p) None
          | Some c =>
              if negb (all_between 0 (qc 1 2) p) then Raised ValueError
              else if negb (qltb 0 bw && qltb bw (qc 1 2)) then Raised ValueError
              else if negb (qltb 0 fh && qltb fh 1) then Raised ValueError
              else if string_dec c "z_min" then Made (inverse_closing_value inverse_z_min bw fh sep (at2 p 5 0)) None
              else if string_dec c "z_max" then Made (inverse_closing_value inverse_z_max bw fh sep (at2 p 4 0)) None
              else Raised ValueError
          end
    end.
