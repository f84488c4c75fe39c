(** Control points of the tiles of dimension two,
    splinepy/microstructure/tiles.  Each definition takes the auxiliary values the
    code computes first and follows its text; numbers in comments are lines. *)
From Coq Require Import List Arith ZArith QArith Qcanon.
From Verif Require Import Base BaseQc S_Grid S_Spline S_Value M_Tiles.
Import ListNotations.
Local Open Scope list_scope.
Local Open Scope nat_scope.

(** chi.py 86-142. *)
Definition chi_splines (v_zero v_one_half s c : Qc) : tile := (
  [bez [2%nat] (* 88-100 *)
      (shift_all v_one_half [[v_zero; v_zero];
       [- s; - c];
       [- v_one_half; - v_one_half]]);
   bez [2%nat] (* 102-114 *)
      (shift_all v_one_half [[v_zero; v_zero];
       [c; - s];
       [v_one_half; - v_one_half]]);
   bez [2%nat] (* 116-128 *)
      (shift_all v_one_half [[v_zero; v_zero];
       [s; c];
       [v_one_half; v_one_half]]);
   bez [2%nat] (* 130-142 *)
      (shift_all v_one_half [[v_zero; v_zero];
       [- c; s];
       [- v_one_half; v_one_half]])])%Qc.

(** cross_2d.py 131-184: the tile that closes x_min. *)
Definition cross2d_x_min (fill_height bound_width inv_bound_width inv_fill_height ctps_mid_height_top ctps_mid_height_bottom v_one_half v_one v_zero branch_thickness : Qc) : tile := (
  let block0_ctps := (* 132-139 *)
      [[v_zero; v_zero];
       [fill_height; v_zero];
       [v_zero; bound_width];
       [fill_height; bound_width]] in
  let block1_ctps := (* 141-148 *)
      [[v_zero; bound_width];
       [fill_height; bound_width];
       [v_zero; inv_bound_width];
       [fill_height; inv_bound_width]] in
  let block2_ctps := (* 150-157 *)
      [[v_zero; inv_bound_width];
       [fill_height; inv_bound_width];
       [v_zero; v_one];
       [fill_height; v_one]] in
  let branch_ctps := (* 159-168 *)
      [[fill_height; bound_width];
       [ctps_mid_height_top; v_one_half - branch_thickness];
       [v_one; v_one_half - branch_thickness];
       [fill_height; inv_bound_width];
       [ctps_mid_height_top; v_one_half + branch_thickness];
       [v_one; v_one_half + branch_thickness]] in
  [bez [1%nat; 1%nat] (* 170-172 *)
      block0_ctps;
   bez [1%nat; 1%nat] (* 174-176 *)
      block1_ctps;
   bez [1%nat; 1%nat] (* 178-180 *)
      block2_ctps;
   bez [2%nat; 1%nat] (* 182-184 *)
      branch_ctps])%Qc.

(** cross_2d.py 188-247: the tile that closes x_max. *)
Definition cross2d_x_max (fill_height bound_width inv_bound_width inv_fill_height ctps_mid_height_top ctps_mid_height_bottom v_one_half v_one v_zero branch_thickness : Qc) : tile := (
  let block0_ctps := (* 189-196 *)
      [[inv_fill_height; v_zero];
       [v_one; v_zero];
       [inv_fill_height; bound_width];
       [v_one; bound_width]] in
  let block1_ctps := (* 198-205 *)
      [[inv_fill_height; bound_width];
       [v_one; bound_width];
       [inv_fill_height; inv_bound_width];
       [v_one; inv_bound_width]] in
  let block2_ctps := (* 207-214 *)
      [[inv_fill_height; inv_bound_width];
       [v_one; inv_bound_width];
       [inv_fill_height; v_one];
       [v_one; v_one]] in
  let branch_ctps := (* 216-231 *)
      [[0; v_one_half - branch_thickness];
       [ctps_mid_height_bottom; v_one_half - branch_thickness];
       [inv_fill_height; bound_width];
       [v_zero; v_one_half + branch_thickness];
       [ctps_mid_height_bottom; v_one_half + branch_thickness];
       [inv_fill_height; inv_bound_width]] in
  [bez [1%nat; 1%nat] (* 233-235 *)
      block0_ctps;
   bez [1%nat; 1%nat] (* 237-239 *)
      block1_ctps;
   bez [1%nat; 1%nat] (* 241-243 *)
      block2_ctps;
   bez [2%nat; 1%nat] (* 245-247 *)
      branch_ctps])%Qc.

(** cross_2d.py 251-304: the tile that closes y_min. *)
Definition cross2d_y_min (fill_height bound_width inv_bound_width inv_fill_height ctps_mid_height_top ctps_mid_height_bottom v_one_half v_one v_zero branch_thickness : Qc) : tile := (
  let block0_ctps := (* 252-259 *)
      [[v_zero; v_zero];
       [bound_width; v_zero];
       [v_zero; fill_height];
       [bound_width; fill_height]] in
  let block1_ctps := (* 261-268 *)
      [[bound_width; v_zero];
       [inv_bound_width; v_zero];
       [bound_width; fill_height];
       [inv_bound_width; fill_height]] in
  let block2_ctps := (* 270-277 *)
      [[inv_bound_width; v_zero];
       [v_one; v_zero];
       [inv_bound_width; fill_height];
       [v_one; fill_height]] in
  let branch_ctps := (* 279-288 *)
      [[bound_width; fill_height];
       [inv_bound_width; fill_height];
       [v_one_half - branch_thickness; ctps_mid_height_top];
       [v_one_half + branch_thickness; ctps_mid_height_top];
       [v_one_half - branch_thickness; v_one];
       [v_one_half + branch_thickness; v_one]] in
  [bez [1%nat; 1%nat] (* 290-292 *)
      block0_ctps;
   bez [1%nat; 1%nat] (* 294-296 *)
      block1_ctps;
   bez [1%nat; 1%nat] (* 298-300 *)
      block2_ctps;
   bez [1%nat; 2%nat] (* 302-304 *)
      branch_ctps])%Qc.

(** cross_2d.py 308-367: the tile that closes y_max. *)
Definition cross2d_y_max (fill_height bound_width inv_bound_width inv_fill_height ctps_mid_height_top ctps_mid_height_bottom v_one_half v_one v_zero branch_thickness : Qc) : tile := (
  let block0_ctps := (* 309-316 *)
      [[v_zero; inv_fill_height];
       [bound_width; inv_fill_height];
       [v_zero; v_one];
       [bound_width; v_one]] in
  let block1_ctps := (* 318-325 *)
      [[bound_width; inv_fill_height];
       [inv_bound_width; inv_fill_height];
       [bound_width; v_one];
       [inv_bound_width; v_one]] in
  let block2_ctps := (* 327-334 *)
      [[inv_bound_width; inv_fill_height];
       [v_one; inv_fill_height];
       [inv_bound_width; v_one];
       [v_one; v_one]] in
  let branch_ctps := (* 336-351 *)
      [[v_one_half - branch_thickness; v_zero];
       [v_one_half + branch_thickness; v_zero];
       [v_one_half - branch_thickness; ctps_mid_height_bottom];
       [v_one_half + branch_thickness; ctps_mid_height_bottom];
       [bound_width; inv_fill_height];
       [inv_bound_width; inv_fill_height]] in
  [bez [1%nat; 1%nat] (* 353-355 *)
      block0_ctps;
   bez [1%nat; 1%nat] (* 357-359 *)
      block1_ctps;
   bez [1%nat; 1%nat] (* 361-363 *)
      block2_ctps;
   bez [1%nat; 2%nat] (* 365-367 *)
      branch_ctps])%Qc.

(** cross_2d.py 490-564. *)
Definition cross2d_splines (v_one_half center_r hd_center x_min_r x_max_r y_min_r y_max_r : Qc) : tile := (
  let center_points := (* 492-499 *)
      (shift [v_one_half; v_one_half]
      [[- center_r; - center_r];
       [center_r; - center_r];
       [- center_r; center_r];
       [center_r; center_r]]) in
  let y_min_ctps := (* 501-510 *)
      (shift [v_one_half; v_one_half]
      [[- y_min_r; - v_one_half];
       [y_min_r; - v_one_half];
       [- y_min_r; - hd_center];
       [y_min_r; - hd_center];
       [- center_r; - center_r];
       [center_r; - center_r]]) in
  let y_max_ctps := (* 512-521 *)
      (shift [v_one_half; v_one_half]
      [[- center_r; center_r];
       [center_r; center_r];
       [- y_max_r; hd_center];
       [y_max_r; hd_center];
       [- y_max_r; v_one_half];
       [y_max_r; v_one_half]]) in
  let x_min_ctps := (* 523-532 *)
      (shift [v_one_half; v_one_half]
      [[- v_one_half; - x_min_r];
       [- hd_center; - x_min_r];
       [- center_r; - center_r];
       [- v_one_half; x_min_r];
       [- hd_center; x_min_r];
       [- center_r; center_r]]) in
  let x_max_ctps := (* 534-543 *)
      (shift [v_one_half; v_one_half]
      [[center_r; - center_r];
       [hd_center; - x_max_r];
       [v_one_half; - x_max_r];
       [center_r; center_r];
       [hd_center; x_max_r];
       [v_one_half; x_max_r]]) in
  [bez [1%nat; 1%nat] (* 545-547 *)
      center_points;
   bez [2%nat; 1%nat] (* 549-551 *)
      x_min_ctps;
   bez [2%nat; 1%nat] (* 553-555 *)
      x_max_ctps;
   bez [1%nat; 2%nat] (* 557-559 *)
      y_min_ctps;
   bez [1%nat; 2%nat] (* 561-563 *)
      y_max_ctps])%Qc.

(** double_lattice.py 102-375. *)
Definition double_lattice_splines (sqrt2 cl thick_vert_hor thick_diagonal v_one_half v_one v_zero : Qc) : tile := (
  let a01 := v_zero in
  let a02 := thick_vert_hor in
  let a03 := thick_vert_hor + (thick_diagonal * sqrt2) in
  let a04 := (v_one - cl) * (qc 1 2) in
  let a05 := v_one_half - (thick_diagonal * sqrt2) in
  let a06 := v_one_half in
  let a07 := v_one_half + (thick_diagonal * sqrt2) in
  let a08 := (v_one + cl) * (qc 1 2) in
  let a09 := v_one - (thick_vert_hor + (thick_diagonal * sqrt2)) in
  let a10 := v_one - thick_vert_hor in
  let a11 := v_one in
  [bez [1%nat; 1%nat] (* 118-128 *)
      [[a01; a01];
       [a02; a02];
       [a01; a04];
       [a02; a03]];
   bez [1%nat; 1%nat] (* 131-141 *)
      [[a01; a01];
       [a04; a01];
       [a02; a02];
       [a03; a02]];
   bez [1%nat; 1%nat] (* 144-154 *)
      [[a04; a01];
       [a08; a01];
       [a03; a02];
       [a09; a02]];
   bez [1%nat; 1%nat] (* 157-167 *)
      [[a08; a01];
       [a11; a01];
       [a09; a02];
       [a10; a02]];
   bez [1%nat; 1%nat] (* 170-180 *)
      [[a10; a02];
       [a11; a01];
       [a10; a03];
       [a11; a04]];
   bez [1%nat; 1%nat] (* 183-193 *)
      [[a11; a04];
       [a11; a08];
       [a10; a03];
       [a10; a09]];
   bez [1%nat; 1%nat] (* 196-206 *)
      [[a10; a09];
       [a11; a08];
       [a10; a10];
       [a11; a11]];
   bez [1%nat; 1%nat] (* 208-218 *)
      [[a09; a10];
       [a10; a10];
       [a08; a11];
       [a11; a11]];
   bez [1%nat; 1%nat] (* 221-231 *)
      [[a03; a10];
       [a09; a10];
       [a04; a11];
       [a08; a11]];
   bez [1%nat; 1%nat] (* 234-244 *)
      [[a02; a10];
       [a03; a10];
       [a01; a11];
       [a04; a11]];
   bez [1%nat; 1%nat] (* 247-257 *)
      [[a01; a08];
       [a02; a09];
       [a01; a11];
       [a02; a10]];
   bez [1%nat; 1%nat] (* 260-270 *)
      [[a01; a04];
       [a02; a03];
       [a01; a08];
       [a02; a09]];
   bez [1%nat; 1%nat] (* 273-283 *)
      [[a02; a09];
       [a05; a06];
       [a02; a10];
       [a06; a06]];
   bez [1%nat; 1%nat] (* 286-296 *)
      [[a02; a10];
       [a06; a06];
       [a03; a10];
       [a06; a07]];
   bez [1%nat; 1%nat] (* 299-309 *)
      [[a02; a02];
       [a06; a06];
       [a02; a03];
       [a05; a06]];
   bez [1%nat; 1%nat] (* 312-322 *)
      [[a02; a02];
       [a03; a02];
       [a06; a06];
       [a06; a05]];
   bez [1%nat; 1%nat] (* 325-335 *)
      [[a09; a02];
       [a10; a02];
       [a06; a05];
       [a06; a06]];
   bez [1%nat; 1%nat] (* 338-348 *)
      [[a06; a06];
       [a10; a02];
       [a07; a06];
       [a10; a03]];
   bez [1%nat; 1%nat] (* 351-361 *)
      [[a06; a06];
       [a07; a06];
       [a10; a10];
       [a10; a09]];
   bez [1%nat; 1%nat] (* 364-374 *)
      [[a06; a06];
       [a10; a10];
       [a06; a07];
       [a09; a10]]])%Qc.

(** hollow_octagon.py 89-161, 382-400: the tile that closes x_min. *)
Definition octagon_x_min (v_h_void v_zero v_one_half v_one v_outer_c_h v_inner_c_h : Qc) : tile := (
  let right := (* 90-97 *)
      [[v_h_void + v_one_half; (- v_inner_c_h) + v_one_half];
       [v_one; (- v_outer_c_h) + v_one_half];
       [v_h_void + v_one_half; v_inner_c_h + v_one_half];
       [v_one; v_outer_c_h + v_one_half]] in
  let right_top := (* 99-106 *)
      [[v_h_void + v_one_half; v_inner_c_h + v_one_half];
       [v_one; v_outer_c_h + v_one_half];
       [v_inner_c_h + v_one_half; v_h_void + v_one_half];
       [v_outer_c_h + v_one_half; v_one]] in
  let top := (* 108-115 *)
      [[v_inner_c_h + v_one_half; v_h_void + v_one_half];
       [v_outer_c_h + v_one_half; v_one];
       [(- v_inner_c_h) + v_one_half; v_h_void + v_one_half];
       [(- v_outer_c_h) + v_one_half; v_one]] in
  let bottom_left := (* 117-124 *)
      [[(- v_h_void) + v_one_half; (- v_inner_c_h) + v_one_half];
       [v_zero; v_zero];
       [(- v_inner_c_h) + v_one_half; (- v_h_void) + v_one_half];
       [(- v_outer_c_h) + v_one_half; v_zero]] in
  let left := (* 126-133 *)
      [[v_zero; v_zero];
       [(- v_h_void) + v_one_half; (- v_inner_c_h) + v_one_half];
       [v_zero; v_one];
       [(- v_h_void) + v_one_half; v_inner_c_h + v_one_half]] in
  let top_left := (* 135-142 *)
      [[v_zero; v_one];
       [(- v_h_void) + v_one_half; v_inner_c_h + v_one_half];
       [(- v_outer_c_h) + v_one_half; v_one];
       [(- v_inner_c_h) + v_one_half; v_h_void + v_one_half]] in
  let bottom := (* 144-151 *)
      [[v_outer_c_h + v_one_half; v_zero];
       [v_inner_c_h + v_one_half; (- v_h_void) + v_one_half];
       [(- v_outer_c_h) + v_one_half; v_zero];
       [(- v_inner_c_h) + v_one_half; (- v_h_void) + v_one_half]] in
  let bottom_right := (* 153-160 *)
      [[v_inner_c_h + v_one_half; (- v_h_void) + v_one_half];
       [v_outer_c_h + v_one_half; v_zero];
       [v_h_void + v_one_half; (- v_inner_c_h) + v_one_half];
       [v_one; (- v_outer_c_h) + v_one_half]] in
  [bez [1%nat; 1%nat] (* 383-383 *)
      right;
   bez [1%nat; 1%nat] (* 385-385 *)
      right_top;
   bez [1%nat; 1%nat] (* 387-387 *)
      bottom;
   bez [1%nat; 1%nat] (* 389-389 *)
      bottom_left;
   bez [1%nat; 1%nat] (* 391-391 *)
      left;
   bez [1%nat; 1%nat] (* 393-393 *)
      top_left;
   bez [1%nat; 1%nat] (* 395-395 *)
      top;
   bez [1%nat; 1%nat] (* 397-399 *)
      bottom_right])%Qc.

(** hollow_octagon.py 163-234, 382-400: the tile that closes x_max. *)
Definition octagon_x_max (v_h_void v_zero v_one_half v_one v_outer_c_h v_inner_c_h : Qc) : tile := (
  let right := (* 163-170 *)
      [[v_h_void + v_one_half; (- v_inner_c_h) + v_one_half];
       [v_one; v_zero];
       [v_h_void + v_one_half; v_inner_c_h + v_one_half];
       [v_one; v_one]] in
  let right_top := (* 172-179 *)
      [[v_h_void + v_one_half; v_inner_c_h + v_one_half];
       [v_one; v_one];
       [v_inner_c_h + v_one_half; v_h_void + v_one_half];
       [v_outer_c_h + v_one_half; v_one]] in
  let top := (* 181-188 *)
      [[v_inner_c_h + v_one_half; v_h_void + v_one_half];
       [v_outer_c_h + v_one_half; v_one];
       [(- v_inner_c_h) + v_one_half; v_h_void + v_one_half];
       [(- v_outer_c_h) + v_one_half; v_one]] in
  let bottom_left := (* 190-197 *)
      [[(- v_h_void) + v_one_half; (- v_inner_c_h) + v_one_half];
       [v_zero; (- v_outer_c_h) + v_one_half];
       [(- v_inner_c_h) + v_one_half; (- v_h_void) + v_one_half];
       [(- v_outer_c_h) + v_one_half; v_zero]] in
  let left := (* 199-206 *)
      [[v_zero; (- v_outer_c_h) + v_one_half];
       [(- v_h_void) + v_one_half; (- v_inner_c_h) + v_one_half];
       [v_zero; v_outer_c_h + v_one_half];
       [(- v_h_void) + v_one_half; v_inner_c_h + v_one_half]] in
  let top_left := (* 208-215 *)
      [[v_zero; v_outer_c_h + v_one_half];
       [(- v_h_void) + v_one_half; v_inner_c_h + v_one_half];
       [(- v_outer_c_h) + v_one_half; v_one];
       [(- v_inner_c_h) + v_one_half; v_h_void + v_one_half]] in
  let bottom := (* 217-224 *)
      [[v_outer_c_h + v_one_half; v_zero];
       [v_inner_c_h + v_one_half; (- v_h_void) + v_one_half];
       [(- v_outer_c_h) + v_one_half; v_zero];
       [(- v_inner_c_h) + v_one_half; (- v_h_void) + v_one_half]] in
  let bottom_right := (* 226-233 *)
      [[v_inner_c_h + v_one_half; (- v_h_void) + v_one_half];
       [v_outer_c_h + v_one_half; v_zero];
       [v_h_void + v_one_half; (- v_inner_c_h) + v_one_half];
       [v_one; v_zero]] in
  [bez [1%nat; 1%nat] (* 383-383 *)
      right;
   bez [1%nat; 1%nat] (* 385-385 *)
      right_top;
   bez [1%nat; 1%nat] (* 387-387 *)
      bottom;
   bez [1%nat; 1%nat] (* 389-389 *)
      bottom_left;
   bez [1%nat; 1%nat] (* 391-391 *)
      left;
   bez [1%nat; 1%nat] (* 393-393 *)
      top_left;
   bez [1%nat; 1%nat] (* 395-395 *)
      top;
   bez [1%nat; 1%nat] (* 397-399 *)
      bottom_right])%Qc.

(** hollow_octagon.py 236-308, 382-400: the tile that closes y_min. *)
Definition octagon_y_min (v_h_void v_zero v_one_half v_one v_outer_c_h v_inner_c_h : Qc) : tile := (
  let right := (* 237-244 *)
      [[v_h_void + v_one_half; (- v_inner_c_h) + v_one_half];
       [v_one; (- v_outer_c_h) + v_one_half];
       [v_h_void + v_one_half; v_inner_c_h + v_one_half];
       [v_one; v_outer_c_h + v_one_half]] in
  let right_top := (* 246-253 *)
      [[v_h_void + v_one_half; v_inner_c_h + v_one_half];
       [v_one; v_outer_c_h + v_one_half];
       [v_inner_c_h + v_one_half; v_h_void + v_one_half];
       [v_outer_c_h + v_one_half; v_one]] in
  let top := (* 255-262 *)
      [[v_inner_c_h + v_one_half; v_h_void + v_one_half];
       [v_outer_c_h + v_one_half; v_one];
       [(- v_inner_c_h) + v_one_half; v_h_void + v_one_half];
       [(- v_outer_c_h) + v_one_half; v_one]] in
  let bottom_left := (* 264-271 *)
      [[(- v_h_void) + v_one_half; (- v_inner_c_h) + v_one_half];
       [v_zero; (- v_outer_c_h) + v_one_half];
       [(- v_inner_c_h) + v_one_half; (- v_h_void) + v_one_half];
       [v_zero; v_zero]] in
  let left := (* 273-280 *)
      [[v_zero; (- v_outer_c_h) + v_one_half];
       [(- v_h_void) + v_one_half; (- v_inner_c_h) + v_one_half];
       [v_zero; v_outer_c_h + v_one_half];
       [(- v_h_void) + v_one_half; v_inner_c_h + v_one_half]] in
  let top_left := (* 282-289 *)
      [[v_zero; v_outer_c_h + v_one_half];
       [(- v_h_void) + v_one_half; v_inner_c_h + v_one_half];
       [(- v_outer_c_h) + v_one_half; v_one];
       [(- v_inner_c_h) + v_one_half; v_h_void + v_one_half]] in
  let bottom := (* 291-298 *)
      [[v_one; v_zero];
       [v_inner_c_h + v_one_half; (- v_h_void) + v_one_half];
       [v_zero; v_zero];
       [(- v_inner_c_h) + v_one_half; (- v_h_void) + v_one_half]] in
  let bottom_right := (* 300-307 *)
      [[v_inner_c_h + v_one_half; (- v_h_void) + v_one_half];
       [v_one; v_zero];
       [v_h_void + v_one_half; (- v_inner_c_h) + v_one_half];
       [v_one; (- v_outer_c_h) + v_one_half]] in
  [bez [1%nat; 1%nat] (* 383-383 *)
      right;
   bez [1%nat; 1%nat] (* 385-385 *)
      right_top;
   bez [1%nat; 1%nat] (* 387-387 *)
      bottom;
   bez [1%nat; 1%nat] (* 389-389 *)
      bottom_left;
   bez [1%nat; 1%nat] (* 391-391 *)
      left;
   bez [1%nat; 1%nat] (* 393-393 *)
      top_left;
   bez [1%nat; 1%nat] (* 395-395 *)
      top;
   bez [1%nat; 1%nat] (* 397-399 *)
      bottom_right])%Qc.

(** hollow_octagon.py 310-381, 382-400: the tile that closes y_max. *)
Definition octagon_y_max (v_h_void v_zero v_one_half v_one v_outer_c_h v_inner_c_h : Qc) : tile := (
  let right := (* 311-318 *)
      [[v_h_void + v_one_half; (- v_inner_c_h) + v_one_half];
       [v_one; (- v_outer_c_h) + v_one_half];
       [v_h_void + v_one_half; v_inner_c_h + v_one_half];
       [v_one; v_outer_c_h + v_one_half]] in
  let right_top := (* 320-327 *)
      [[v_h_void + v_one_half; v_inner_c_h + v_one_half];
       [v_one; v_outer_c_h + v_one_half];
       [v_inner_c_h + v_one_half; v_h_void + v_one_half];
       [v_one; v_one]] in
  let top := (* 329-336 *)
      [[v_inner_c_h + v_one_half; v_h_void + v_one_half];
       [v_one; v_one];
       [(- v_inner_c_h) + v_one_half; v_h_void + v_one_half];
       [v_zero; v_one]] in
  let bottom_left := (* 338-345 *)
      [[(- v_h_void) + v_one_half; (- v_inner_c_h) + v_one_half];
       [v_zero; (- v_outer_c_h) + v_one_half];
       [(- v_inner_c_h) + v_one_half; (- v_h_void) + v_one_half];
       [(- v_outer_c_h) + v_one_half; v_zero]] in
  let left := (* 347-354 *)
      [[v_zero; (- v_outer_c_h) + v_one_half];
       [(- v_h_void) + v_one_half; (- v_inner_c_h) + v_one_half];
       [v_zero; v_outer_c_h + v_one_half];
       [(- v_h_void) + v_one_half; v_inner_c_h + v_one_half]] in
  let top_left := (* 356-363 *)
      [[v_zero; v_outer_c_h + v_one_half];
       [(- v_h_void) + v_one_half; v_inner_c_h + v_one_half];
       [v_zero; v_one];
       [(- v_inner_c_h) + v_one_half; v_h_void + v_one_half]] in
  let bottom := (* 365-372 *)
      [[v_outer_c_h + v_one_half; v_zero];
       [v_inner_c_h + v_one_half; (- v_h_void) + v_one_half];
       [(- v_outer_c_h) + v_one_half; v_zero];
       [(- v_inner_c_h) + v_one_half; (- v_h_void) + v_one_half]] in
  let bottom_right := (* 374-381 *)
      [[v_inner_c_h + v_one_half; (- v_h_void) + v_one_half];
       [v_outer_c_h + v_one_half; v_zero];
       [v_h_void + v_one_half; (- v_inner_c_h) + v_one_half];
       [v_one; (- v_outer_c_h) + v_one_half]] in
  [bez [1%nat; 1%nat] (* 383-383 *)
      right;
   bez [1%nat; 1%nat] (* 385-385 *)
      right_top;
   bez [1%nat; 1%nat] (* 387-387 *)
      bottom;
   bez [1%nat; 1%nat] (* 389-389 *)
      bottom_left;
   bez [1%nat; 1%nat] (* 391-391 *)
      left;
   bez [1%nat; 1%nat] (* 393-393 *)
      top_left;
   bez [1%nat; 1%nat] (* 395-395 *)
      top;
   bez [1%nat; 1%nat] (* 397-399 *)
      bottom_right])%Qc.

(** hollow_octagon.py 482-572. *)
Definition octagon_splines (v_h_void v_zero v_one_half v_one v_outer_c_h v_inner_c_h : Qc) : tile := (
  let right := (* 484-491 *)
      [[v_h_void + v_one_half; (- v_inner_c_h) + v_one_half];
       [v_one; (- v_outer_c_h) + v_one_half];
       [v_h_void + v_one_half; v_inner_c_h + v_one_half];
       [v_one; v_outer_c_h + v_one_half]] in
  let right_top := (* 493-500 *)
      [[v_h_void + v_one_half; v_inner_c_h + v_one_half];
       [v_one; v_outer_c_h + v_one_half];
       [v_inner_c_h + v_one_half; v_h_void + v_one_half];
       [v_outer_c_h + v_one_half; v_one]] in
  let top := (* 502-509 *)
      [[v_inner_c_h + v_one_half; v_h_void + v_one_half];
       [v_outer_c_h + v_one_half; v_one];
       [(- v_inner_c_h) + v_one_half; v_h_void + v_one_half];
       [(- v_outer_c_h) + v_one_half; v_one]] in
  let bottom_left := (* 511-518 *)
      [[(- v_h_void) + v_one_half; (- v_inner_c_h) + v_one_half];
       [v_zero; (- v_outer_c_h) + v_one_half];
       [(- v_inner_c_h) + v_one_half; (- v_h_void) + v_one_half];
       [(- v_outer_c_h) + v_one_half; v_zero]] in
  let left := (* 520-527 *)
      [[v_zero; (- v_outer_c_h) + v_one_half];
       [(- v_h_void) + v_one_half; (- v_inner_c_h) + v_one_half];
       [v_zero; v_outer_c_h + v_one_half];
       [(- v_h_void) + v_one_half; v_inner_c_h + v_one_half]] in
  let top_left := (* 529-536 *)
      [[v_zero; v_outer_c_h + v_one_half];
       [(- v_h_void) + v_one_half; v_inner_c_h + v_one_half];
       [(- v_outer_c_h) + v_one_half; v_one];
       [(- v_inner_c_h) + v_one_half; v_h_void + v_one_half]] in
  let bottom := (* 538-545 *)
      [[v_outer_c_h + v_one_half; v_zero];
       [v_inner_c_h + v_one_half; (- v_h_void) + v_one_half];
       [(- v_outer_c_h) + v_one_half; v_zero];
       [(- v_inner_c_h) + v_one_half; (- v_h_void) + v_one_half]] in
  let bottom_right := (* 547-554 *)
      [[v_inner_c_h + v_one_half; (- v_h_void) + v_one_half];
       [v_outer_c_h + v_one_half; v_zero];
       [v_h_void + v_one_half; (- v_inner_c_h) + v_one_half];
       [v_one; (- v_outer_c_h) + v_one_half]] in
  [bez [1%nat; 1%nat] (* 556-556 *)
      right;
   bez [1%nat; 1%nat] (* 558-558 *)
      right_top;
   bez [1%nat; 1%nat] (* 560-560 *)
      bottom;
   bez [1%nat; 1%nat] (* 562-562 *)
      bottom_left;
   bez [1%nat; 1%nat] (* 564-564 *)
      left;
   bez [1%nat; 1%nat] (* 566-566 *)
      top_left;
   bez [1%nat; 1%nat] (* 568-568 *)
      top;
   bez [1%nat; 1%nat] (* 570-572 *)
      bottom_right])%Qc.

(** snappy.py 393-517. *)
Definition snappy_splines (v_zero v_one_half v_one cl_2 cl_2_inv a a_inv b r : Qc) : tile := (
  let spline_1 := (* 395-402 *)
      [[v_zero; v_zero];
       [cl_2; v_zero];
       [v_zero; b];
       [cl_2; b]] in
  let spline_2 := (* 405-412 *)
      [[cl_2_inv; v_zero];
       [v_one; v_zero];
       [cl_2_inv; b];
       [v_one; b]] in
  let spline_3 := (* 415-422 *)
      [[v_zero; a_inv];
       [cl_2; a_inv];
       [v_zero; v_one];
       [cl_2; v_one]] in
  let spline_4 := (* 425-432 *)
      [[cl_2_inv; a_inv];
       [v_one; a_inv];
       [cl_2_inv; v_one];
       [v_one; v_one]] in
  let spline_5 := (* 436-443 *)
      [[v_one_half - cl_2; v_one_half - b];
       [v_one_half + cl_2; v_one_half - b];
       [v_one_half - cl_2; v_one_half];
       [v_one_half + cl_2; v_one_half]] in
  let spline_6 := (* 447-454 *)
      [[v_one_half - cl_2; v_one_half];
       [v_one_half + cl_2; v_one_half];
       [v_one_half - cl_2; v_one_half + a];
       [v_one_half + cl_2; v_one_half + a]] in
  let spline_7 := (* 458-469 *)
      [[cl_2; v_zero];
       [cl_2 + r; v_zero];
       [(v_one_half - cl_2) - r; v_one_half - b];
       [v_one_half - cl_2; v_one_half - b];
       [cl_2; b];
       [cl_2 + r; b];
       [(v_one_half - cl_2) - r; v_one_half];
       [v_one_half - cl_2; v_one_half]] in
  let spline_8 := (* 473-484 *)
      (shift [v_one_half; v_zero]
      [[cl_2; v_one_half - b];
       [cl_2 + r; v_one_half - b];
       [(v_one_half - cl_2) - r; v_zero];
       [v_one_half - cl_2; v_zero];
       [cl_2; v_one_half];
       [cl_2 + r; v_one_half];
       [(v_one_half - cl_2) - r; b];
       [v_one_half - cl_2; b]]) in
  let spline_9 := (* 488-499 *)
      [[cl_2; a_inv];
       [cl_2 + r; a_inv];
       [(v_one_half - cl_2) - r; v_one_half];
       [v_one_half - cl_2; v_one_half];
       [cl_2; v_one];
       [cl_2 + r; v_one];
       [(v_one_half - cl_2) - r; v_one_half + a];
       [v_one_half - cl_2; v_one_half + a]] in
  let spline_10 := (* 503-514 *)
      (shift [v_one_half; v_zero]
      [[cl_2; v_one_half];
       [cl_2 + r; v_one_half];
       [(v_one_half - cl_2) - r; a_inv];
       [v_one_half - cl_2; a_inv];
       [cl_2; v_one_half + a];
       [cl_2 + r; v_one_half + a];
       [(v_one_half - cl_2) - r; v_one];
       [v_one_half - cl_2; v_one]]) in
  [bez [1%nat; 1%nat] (* 404-404 *)
      spline_1;
   bez [1%nat; 1%nat] (* 414-414 *)
      spline_2;
   bez [1%nat; 1%nat] (* 424-424 *)
      spline_3;
   bez [1%nat; 1%nat] (* 434-434 *)
      spline_4;
   bez [1%nat; 1%nat] (* 445-445 *)
      spline_5;
   bez [1%nat; 1%nat] (* 456-456 *)
      spline_6;
   bez [3%nat; 1%nat] (* 471-471 *)
      spline_7;
   bez [3%nat; 1%nat] (* 486-486 *)
      spline_8;
   bez [3%nat; 1%nat] (* 501-501 *)
      spline_9;
   bez [3%nat; 1%nat] (* 516-516 *)
      spline_10])%Qc.
