(** Control points of the tiles of dimension three,
    splinepy/microstructure/tiles, except InverseCross3D and Armadillo.  As in
    M_Tile2D. *)
From Coq Require Import List Arith ZArith QArith Qcanon.
From Verif Require Import Base BaseQc S_Grid S_Spline S_Value M_Tiles.
Import ListNotations.
Local Open Scope list_scope.
Local Open Scope nat_scope.

(** cross_3d.py 132-295: the tile that closes z_min. *)
Definition cross3d_z_min (deriv : bool) (bound_width fill_height inv_boundary_width inv_filling_height center_width ctps_mid_height_top ctps_mid_height_bottom r_center v_zero v_one_half v_one branch_thickness : Qc) : tile := (
  let ctps_corner := (* 133-144 *)
      [[v_zero; v_zero; v_zero];
       [bound_width; v_zero; v_zero];
       [v_zero; bound_width; v_zero];
       [bound_width; bound_width; v_zero];
       [v_zero; v_zero; fill_height];
       [bound_width; v_zero; fill_height];
       [v_zero; bound_width; fill_height];
       [bound_width; bound_width; fill_height]] in
  let center_ctps := (* 185-196 *)
      [[bound_width; bound_width; v_zero];
       [inv_boundary_width; bound_width; v_zero];
       [bound_width; inv_boundary_width; v_zero];
       [inv_boundary_width; inv_boundary_width; v_zero];
       [bound_width; bound_width; fill_height];
       [inv_boundary_width; bound_width; fill_height];
       [bound_width; inv_boundary_width; fill_height];
       [inv_boundary_width; inv_boundary_width; fill_height]] in
  let branch_ctps := (* 261-292 *)
      (shift [v_one_half; v_one_half; v_zero]
      [[- r_center; - r_center; fill_height];
       [r_center; - r_center; fill_height];
       [- r_center; r_center; fill_height];
       [r_center; r_center; fill_height];
       [- branch_thickness; - branch_thickness; ctps_mid_height_top];
       [branch_thickness; - branch_thickness; ctps_mid_height_top];
       [- branch_thickness; branch_thickness; ctps_mid_height_top];
       [branch_thickness; branch_thickness; ctps_mid_height_top];
       [- branch_thickness; - branch_thickness; v_one];
       [branch_thickness; - branch_thickness; v_one];
       [- branch_thickness; branch_thickness; v_one];
       [branch_thickness; branch_thickness; v_one]]) in
  [bez [1%nat; 1%nat; 1%nat] (* 145-147 *)
      ctps_corner;
   bez [1%nat; 1%nat; 1%nat] (* 149-157 *)
      (shift [v_zero; inv_boundary_width; v_zero]
      ctps_corner);
   bez [1%nat; 1%nat; 1%nat] (* 159-167 *)
      (shift [inv_boundary_width; v_zero; v_zero]
      ctps_corner);
   bez [1%nat; 1%nat; 1%nat] (* 169-183 *)
      (shift [inv_boundary_width; inv_boundary_width; v_zero]
      ctps_corner);
   bez [1%nat; 1%nat; 1%nat] (* 197-199 *)
      center_ctps;
   bez [1%nat; 1%nat; 1%nat] (* 201-214 *)
      (if deriv then (zeros 8 3) else (at_least v_zero (shift (map Qcopp [center_width; v_zero; v_zero]) center_ctps)));
   bez [1%nat; 1%nat; 1%nat] (* 216-229 *)
      (if deriv then (zeros 8 3) else (at_least v_zero (shift (map Qcopp [v_zero; center_width; v_zero]) center_ctps)));
   bez [1%nat; 1%nat; 1%nat] (* 231-244 *)
      (if deriv then (zeros 8 3) else (at_most v_one (shift [center_width; v_zero; v_zero]
      center_ctps)));
   bez [1%nat; 1%nat; 1%nat] (* 246-259 *)
      (if deriv then (zeros 8 3) else (at_most v_one (shift [v_zero; center_width; v_zero]
      center_ctps)));
   bez [1%nat; 1%nat; 2%nat] (* 293-295 *)
      branch_ctps])%Qc.

(** cross_3d.py 302-469: the tile that closes z_max. *)
Definition cross3d_z_max (deriv : bool) (bound_width fill_height inv_boundary_width inv_filling_height center_width ctps_mid_height_top ctps_mid_height_bottom r_center v_zero v_one_half v_one branch_thickness : Qc) : tile := (
  let ctps_corner := (* 302-313 *)
      [[v_zero; v_zero; inv_filling_height];
       [bound_width; v_zero; inv_filling_height];
       [v_zero; bound_width; inv_filling_height];
       [bound_width; bound_width; inv_filling_height];
       [v_zero; v_zero; v_one];
       [bound_width; v_zero; v_one];
       [v_zero; bound_width; v_one];
       [bound_width; bound_width; v_one]] in
  let center_ctps := (* 355-370 *)
      [[bound_width; bound_width; inv_filling_height];
       [inv_boundary_width; bound_width; inv_filling_height];
       [bound_width; inv_boundary_width; inv_filling_height];
       [inv_boundary_width; inv_boundary_width; inv_filling_height];
       [bound_width; bound_width; v_one];
       [inv_boundary_width; bound_width; v_one];
       [bound_width; inv_boundary_width; v_one];
       [inv_boundary_width; inv_boundary_width; v_one]] in
  let branch_ctps := (* 435-466 *)
      (shift [v_one_half; v_one_half; v_zero]
      [[- branch_thickness; - branch_thickness; v_zero];
       [branch_thickness; - branch_thickness; v_zero];
       [- branch_thickness; branch_thickness; v_zero];
       [branch_thickness; branch_thickness; v_zero];
       [- branch_thickness; - branch_thickness; ctps_mid_height_bottom];
       [branch_thickness; - branch_thickness; ctps_mid_height_bottom];
       [- branch_thickness; branch_thickness; ctps_mid_height_bottom];
       [branch_thickness; branch_thickness; ctps_mid_height_bottom];
       [- r_center; - r_center; inv_filling_height];
       [r_center; - r_center; inv_filling_height];
       [- r_center; r_center; inv_filling_height];
       [r_center; r_center; inv_filling_height]]) in
  [bez [1%nat; 1%nat; 1%nat] (* 315-317 *)
      ctps_corner;
   bez [1%nat; 1%nat; 1%nat] (* 319-327 *)
      (shift [v_zero; inv_boundary_width; v_zero]
      ctps_corner);
   bez [1%nat; 1%nat; 1%nat] (* 329-337 *)
      (shift [inv_boundary_width; v_zero; v_zero]
      ctps_corner);
   bez [1%nat; 1%nat; 1%nat] (* 339-353 *)
      (shift [inv_boundary_width; inv_boundary_width; v_zero]
      ctps_corner);
   bez [1%nat; 1%nat; 1%nat] (* 371-373 *)
      center_ctps;
   bez [1%nat; 1%nat; 1%nat] (* 375-388 *)
      (if deriv then (zeros 8 3) else (at_least v_zero (shift (map Qcopp [center_width; v_zero; v_zero]) center_ctps)));
   bez [1%nat; 1%nat; 1%nat] (* 390-403 *)
      (if deriv then (zeros 8 3) else (at_least v_zero (shift (map Qcopp [v_zero; center_width; v_zero]) center_ctps)));
   bez [1%nat; 1%nat; 1%nat] (* 405-418 *)
      (if deriv then (zeros 8 3) else (at_most v_one (shift [center_width; v_zero; v_zero]
      center_ctps)));
   bez [1%nat; 1%nat; 1%nat] (* 420-433 *)
      (if deriv then (zeros 8 3) else (at_most v_one (shift [v_zero; center_width; v_zero]
      center_ctps)));
   bez [1%nat; 1%nat; 2%nat] (* 467-469 *)
      branch_ctps])%Qc.

(** cross_3d.py 590-737. *)
Definition cross3d_splines (v_one_half center_r hd_center x_min_r x_max_r y_min_r y_max_r z_min_r z_max_r : Qc) (center : list Qc) : tile := (
  let center_points := (* 591-602 *)
      [[- center_r; - center_r; - center_r];
       [center_r; - center_r; - center_r];
       [- center_r; center_r; - center_r];
       [center_r; center_r; - center_r];
       [- center_r; - center_r; center_r];
       [center_r; - center_r; center_r];
       [- center_r; center_r; center_r];
       [center_r; center_r; center_r]] in
  let x_min_ctps := (* 611-626 *)
      [[- v_one_half; - x_min_r; - x_min_r];
       [- hd_center; - x_min_r; - x_min_r];
       (nth 0 center_points []);
       [- v_one_half; x_min_r; - x_min_r];
       [- hd_center; x_min_r; - x_min_r];
       (nth 2 center_points []);
       [- v_one_half; - x_min_r; x_min_r];
       [- hd_center; - x_min_r; x_min_r];
       (nth 4 center_points []);
       [- v_one_half; x_min_r; x_min_r];
       [- hd_center; x_min_r; x_min_r];
       (nth 6 center_points [])] in
  let x_max_ctps := (* 632-647 *)
      [(nth 1 center_points []);
       [hd_center; - x_max_r; - x_max_r];
       [v_one_half; - x_max_r; - x_max_r];
       (nth 3 center_points []);
       [hd_center; x_max_r; - x_max_r];
       [v_one_half; x_max_r; - x_max_r];
       (nth 5 center_points []);
       [hd_center; - x_max_r; x_max_r];
       [v_one_half; - x_max_r; x_max_r];
       (nth 7 center_points []);
       [hd_center; x_max_r; x_max_r];
       [v_one_half; x_max_r; x_max_r]] in
  let y_min_ctps := (* 654-669 *)
      [[- y_min_r; - v_one_half; - y_min_r];
       [y_min_r; - v_one_half; - y_min_r];
       [- y_min_r; - hd_center; - y_min_r];
       [y_min_r; - hd_center; - y_min_r];
       (nth 0 center_points []);
       (nth 1 center_points []);
       [- y_min_r; - v_one_half; y_min_r];
       [y_min_r; - v_one_half; y_min_r];
       [- y_min_r; - hd_center; y_min_r];
       [y_min_r; - hd_center; y_min_r];
       (nth 4 center_points []);
       (nth 5 center_points [])] in
  let y_max_ctps := (* 675-690 *)
      [(nth 2 center_points []);
       (nth 3 center_points []);
       [- y_max_r; hd_center; - y_max_r];
       [y_max_r; hd_center; - y_max_r];
       [- y_max_r; v_one_half; - y_max_r];
       [y_max_r; v_one_half; - y_max_r];
       (nth 6 center_points []);
       (nth 7 center_points []);
       [- y_max_r; hd_center; y_max_r];
       [y_max_r; hd_center; y_max_r];
       [- y_max_r; v_one_half; y_max_r];
       [y_max_r; v_one_half; y_max_r]] in
  let z_min_ctps := (* 697-712 *)
      [[- z_min_r; - z_min_r; - v_one_half];
       [z_min_r; - z_min_r; - v_one_half];
       [- z_min_r; z_min_r; - v_one_half];
       [z_min_r; z_min_r; - v_one_half];
       [- z_min_r; - z_min_r; - hd_center];
       [z_min_r; - z_min_r; - hd_center];
       [- z_min_r; z_min_r; - hd_center];
       [z_min_r; z_min_r; - hd_center];
       (nth 0 center_points []);
       (nth 1 center_points []);
       (nth 2 center_points []);
       (nth 3 center_points [])] in
  let z_max_ctps := (* 718-733 *)
      [(nth 4 center_points []);
       (nth 5 center_points []);
       (nth 6 center_points []);
       (nth 7 center_points []);
       [- z_max_r; - z_max_r; hd_center];
       [z_max_r; - z_max_r; hd_center];
       [- z_max_r; z_max_r; hd_center];
       [z_max_r; z_max_r; hd_center];
       [- z_max_r; - z_max_r; v_one_half];
       [z_max_r; - z_max_r; v_one_half];
       [- z_max_r; z_max_r; v_one_half];
       [z_max_r; z_max_r; v_one_half]] in
  [bez [1%nat; 1%nat; 1%nat] (* 603-607 *)
      (shift center
      center_points);
   bez [2%nat; 1%nat; 1%nat] (* 627-629 *)
      (shift center
      x_min_ctps);
   bez [2%nat; 1%nat; 1%nat] (* 648-650 *)
      (shift center
      x_max_ctps);
   bez [1%nat; 2%nat; 1%nat] (* 670-672 *)
      (shift center
      y_min_ctps);
   bez [1%nat; 2%nat; 1%nat] (* 691-693 *)
      (shift center
      y_max_ctps);
   bez [1%nat; 1%nat; 2%nat] (* 713-715 *)
      (shift center
      z_min_ctps);
   bez [1%nat; 1%nat; 2%nat] (* 734-736 *)
      (shift center
      z_max_ctps)])%Qc.

(** cross_3d_linear.py 128-271: the tile that closes z_min. *)
Definition cross3dlin_z_min (deriv : bool) (bound_width fill_height inv_boundary_width inv_filling_height center_width r_center v_zero v_one_half v_one branch_thickness : Qc) : tile := (
  let ctps_corner := (* 129-140 *)
      [[v_zero; v_zero; v_zero];
       [bound_width; v_zero; v_zero];
       [v_zero; bound_width; v_zero];
       [bound_width; bound_width; v_zero];
       [v_zero; v_zero; fill_height];
       [bound_width; v_zero; fill_height];
       [v_zero; bound_width; fill_height];
       [bound_width; bound_width; fill_height]] in
  let center_ctps := (* 181-192 *)
      [[bound_width; bound_width; v_zero];
       [inv_boundary_width; bound_width; v_zero];
       [bound_width; inv_boundary_width; v_zero];
       [inv_boundary_width; inv_boundary_width; v_zero];
       [bound_width; bound_width; fill_height];
       [inv_boundary_width; bound_width; fill_height];
       [bound_width; inv_boundary_width; fill_height];
       [inv_boundary_width; inv_boundary_width; fill_height]] in
  let branch_ctps := (* 257-268 *)
      (shift [v_one_half; v_one_half; v_zero]
      [[- r_center; - r_center; fill_height];
       [r_center; - r_center; fill_height];
       [- r_center; r_center; fill_height];
       [r_center; r_center; fill_height];
       [- branch_thickness; - branch_thickness; v_one];
       [branch_thickness; - branch_thickness; v_one];
       [- branch_thickness; branch_thickness; v_one];
       [branch_thickness; branch_thickness; v_one]]) in
  [bez [1%nat; 1%nat; 1%nat] (* 141-143 *)
      ctps_corner;
   bez [1%nat; 1%nat; 1%nat] (* 145-153 *)
      (shift [v_zero; inv_boundary_width; v_zero]
      ctps_corner);
   bez [1%nat; 1%nat; 1%nat] (* 155-163 *)
      (shift [inv_boundary_width; v_zero; v_zero]
      ctps_corner);
   bez [1%nat; 1%nat; 1%nat] (* 165-179 *)
      (shift [inv_boundary_width; inv_boundary_width; v_zero]
      ctps_corner);
   bez [1%nat; 1%nat; 1%nat] (* 193-195 *)
      center_ctps;
   bez [1%nat; 1%nat; 1%nat] (* 197-210 *)
      (if deriv then (zeros 8 3) else (at_least v_zero (shift (map Qcopp [center_width; v_zero; v_zero]) center_ctps)));
   bez [1%nat; 1%nat; 1%nat] (* 212-225 *)
      (if deriv then (zeros 8 3) else (at_least v_zero (shift (map Qcopp [v_zero; center_width; v_zero]) center_ctps)));
   bez [1%nat; 1%nat; 1%nat] (* 227-240 *)
      (if deriv then (zeros 8 3) else (at_most v_one (shift [center_width; v_zero; v_zero]
      center_ctps)));
   bez [1%nat; 1%nat; 1%nat] (* 242-255 *)
      (if deriv then (zeros 8 3) else (at_most v_one (shift [v_zero; center_width; v_zero]
      center_ctps)));
   bez [1%nat; 1%nat; 1%nat] (* 269-271 *)
      branch_ctps])%Qc.

(** cross_3d_linear.py 278-425: the tile that closes z_max. *)
Definition cross3dlin_z_max (deriv : bool) (bound_width fill_height inv_boundary_width inv_filling_height center_width r_center v_zero v_one_half v_one branch_thickness : Qc) : tile := (
  let ctps_corner := (* 278-289 *)
      [[v_zero; v_zero; inv_filling_height];
       [bound_width; v_zero; inv_filling_height];
       [v_zero; bound_width; inv_filling_height];
       [bound_width; bound_width; inv_filling_height];
       [v_zero; v_zero; v_one];
       [bound_width; v_zero; v_one];
       [v_zero; bound_width; v_one];
       [bound_width; bound_width; v_one]] in
  let center_ctps := (* 331-346 *)
      [[bound_width; bound_width; inv_filling_height];
       [inv_boundary_width; bound_width; inv_filling_height];
       [bound_width; inv_boundary_width; inv_filling_height];
       [inv_boundary_width; inv_boundary_width; inv_filling_height];
       [bound_width; bound_width; v_one];
       [inv_boundary_width; bound_width; v_one];
       [bound_width; inv_boundary_width; v_one];
       [inv_boundary_width; inv_boundary_width; v_one]] in
  let branch_ctps := (* 411-422 *)
      (shift [v_one_half; v_one_half; v_zero]
      [[- branch_thickness; - branch_thickness; v_zero];
       [branch_thickness; - branch_thickness; v_zero];
       [- branch_thickness; branch_thickness; v_zero];
       [branch_thickness; branch_thickness; v_zero];
       [- r_center; - r_center; inv_filling_height];
       [r_center; - r_center; inv_filling_height];
       [- r_center; r_center; inv_filling_height];
       [r_center; r_center; inv_filling_height]]) in
  [bez [1%nat; 1%nat; 1%nat] (* 291-293 *)
      ctps_corner;
   bez [1%nat; 1%nat; 1%nat] (* 295-303 *)
      (shift [v_zero; inv_boundary_width; v_zero]
      ctps_corner);
   bez [1%nat; 1%nat; 1%nat] (* 305-313 *)
      (shift [inv_boundary_width; v_zero; v_zero]
      ctps_corner);
   bez [1%nat; 1%nat; 1%nat] (* 315-329 *)
      (shift [inv_boundary_width; inv_boundary_width; v_zero]
      ctps_corner);
   bez [1%nat; 1%nat; 1%nat] (* 347-349 *)
      center_ctps;
   bez [1%nat; 1%nat; 1%nat] (* 351-364 *)
      (if deriv then (zeros 8 3) else (at_least v_zero (shift (map Qcopp [center_width; v_zero; v_zero]) center_ctps)));
   bez [1%nat; 1%nat; 1%nat] (* 366-379 *)
      (if deriv then (zeros 8 3) else (at_least v_zero (shift (map Qcopp [v_zero; center_width; v_zero]) center_ctps)));
   bez [1%nat; 1%nat; 1%nat] (* 381-394 *)
      (if deriv then (zeros 8 3) else (at_most v_one (shift [center_width; v_zero; v_zero]
      center_ctps)));
   bez [1%nat; 1%nat; 1%nat] (* 396-409 *)
      (if deriv then (zeros 8 3) else (at_most v_one (shift [v_zero; center_width; v_zero]
      center_ctps)));
   bez [1%nat; 1%nat; 1%nat] (* 423-425 *)
      branch_ctps])%Qc.

(** cross_3d_linear.py 543-667. *)
Definition cross3dlin_splines (v_one_half center_r x_min_r x_max_r y_min_r y_max_r z_min_r z_max_r : Qc) (center : list Qc) : tile := (
  let center_points := (* 545-556 *)
      [[- center_r; - center_r; - center_r];
       [center_r; - center_r; - center_r];
       [- center_r; center_r; - center_r];
       [center_r; center_r; - center_r];
       [- center_r; - center_r; center_r];
       [center_r; - center_r; center_r];
       [- center_r; center_r; center_r];
       [center_r; center_r; center_r]] in
  let x_min_ctps := (* 565-576 *)
      [[- v_one_half; - x_min_r; - x_min_r];
       (nth 0 center_points []);
       [- v_one_half; x_min_r; - x_min_r];
       (nth 2 center_points []);
       [- v_one_half; - x_min_r; x_min_r];
       (nth 4 center_points []);
       [- v_one_half; x_min_r; x_min_r];
       (nth 6 center_points [])] in
  let x_max_ctps := (* 582-593 *)
      [(nth 1 center_points []);
       [v_one_half; - x_max_r; - x_max_r];
       (nth 3 center_points []);
       [v_one_half; x_max_r; - x_max_r];
       (nth 5 center_points []);
       [v_one_half; - x_max_r; x_max_r];
       (nth 7 center_points []);
       [v_one_half; x_max_r; x_max_r]] in
  let y_min_ctps := (* 600-611 *)
      [[- y_min_r; - v_one_half; - y_min_r];
       [y_min_r; - v_one_half; - y_min_r];
       (nth 0 center_points []);
       (nth 1 center_points []);
       [- y_min_r; - v_one_half; y_min_r];
       [y_min_r; - v_one_half; y_min_r];
       (nth 4 center_points []);
       (nth 5 center_points [])] in
  let y_max_ctps := (* 617-628 *)
      [(nth 2 center_points []);
       (nth 3 center_points []);
       [- y_max_r; v_one_half; - y_max_r];
       [y_max_r; v_one_half; - y_max_r];
       (nth 6 center_points []);
       (nth 7 center_points []);
       [- y_max_r; v_one_half; y_max_r];
       [y_max_r; v_one_half; y_max_r]] in
  let z_min_ctps := (* 635-646 *)
      [[- z_min_r; - z_min_r; - v_one_half];
       [z_min_r; - z_min_r; - v_one_half];
       [- z_min_r; z_min_r; - v_one_half];
       [z_min_r; z_min_r; - v_one_half];
       (nth 0 center_points []);
       (nth 1 center_points []);
       (nth 2 center_points []);
       (nth 3 center_points [])] in
  let z_max_ctps := (* 652-663 *)
      [(nth 4 center_points []);
       (nth 5 center_points []);
       (nth 6 center_points []);
       (nth 7 center_points []);
       [- z_max_r; - z_max_r; v_one_half];
       [z_max_r; - z_max_r; v_one_half];
       [- z_max_r; z_max_r; v_one_half];
       [z_max_r; z_max_r; v_one_half]] in
  [bez [1%nat; 1%nat; 1%nat] (* 557-561 *)
      (shift center
      center_points);
   bez [1%nat; 1%nat; 1%nat] (* 577-579 *)
      (shift center
      x_min_ctps);
   bez [1%nat; 1%nat; 1%nat] (* 594-596 *)
      (shift center
      x_max_ctps);
   bez [1%nat; 1%nat; 1%nat] (* 612-614 *)
      (shift center
      y_min_ctps);
   bez [1%nat; 1%nat; 1%nat] (* 629-631 *)
      (shift center
      y_max_ctps);
   bez [1%nat; 1%nat; 1%nat] (* 647-649 *)
      (shift center
      z_min_ctps);
   bez [1%nat; 1%nat; 1%nat] (* 664-666 *)
      (shift center
      z_max_ctps)])%Qc.

(** hollow_cube.py 118-344. *)
Definition hollow_cube_splines (v_zero v_one x_min x_max y_min y_max z_min z_max center : Qc) : tile := (
  [bez [1%nat; 1%nat; 1%nat] (* 118-134 *)
      [[v_one - z_max; z_max; v_one];
       [v_one; v_zero; v_one];
       [v_one - z_max; v_one - z_max; v_one];
       [v_one; v_one; v_one];
       [v_one - center; center; v_one - center];
       [v_one; x_max; v_one - x_max];
       [v_one - center; v_one - center; v_one - center];
       [v_one; v_one - x_max; v_one - x_max]];
   bez [1%nat; 1%nat; 1%nat] (* 137-153 *)
      [[v_zero; x_min; x_min];
       [center; center; center];
       [v_zero; v_one - x_min; x_min];
       [center; v_one - center; center];
       [v_zero; v_zero; v_zero];
       [z_min; z_min; v_zero];
       [v_zero; v_one; v_zero];
       [z_min; v_one - z_min; v_zero]];
   bez [1%nat; 1%nat; 1%nat] (* 156-172 *)
      [[v_zero; v_zero; v_one];
       [z_max; z_max; v_one];
       [v_zero; v_one; v_one];
       [z_max; v_one - z_max; v_one];
       [v_zero; x_min; v_one - x_min];
       [center; center; v_one - center];
       [v_zero; v_one - x_min; v_one - x_min];
       [center; v_one - center; v_one - center]];
   bez [1%nat; 1%nat; 1%nat] (* 175-191 *)
      [[v_one - center; center; center];
       [v_one; x_max; x_max];
       [v_one - center; v_one - center; center];
       [v_one; v_one - x_max; x_max];
       [v_one - z_min; z_min; v_zero];
       [v_one; v_zero; v_zero];
       [v_one - z_min; v_one - z_min; v_zero];
       [v_one; v_one; v_zero]];
   bez [1%nat; 1%nat; 1%nat] (* 194-210 *)
      [[v_one - y_max; v_one; y_max];
       [v_one; v_one; v_zero];
       [v_one - y_max; v_one; v_one - y_max];
       [v_one; v_one; v_one];
       [v_one - center; v_one - center; center];
       [v_one; v_one - x_max; x_max];
       [v_one - center; v_one - center; v_one - center];
       [v_one; v_one - x_max; v_one - x_max]];
   bez [1%nat; 1%nat; 1%nat] (* 213-229 *)
      [[v_zero; v_one; v_zero];
       [v_one; v_one; v_zero];
       [y_max; v_one; y_max];
       [v_one - y_max; v_one; y_max];
       [z_min; v_one - z_min; v_zero];
       [v_one - z_min; v_one - z_min; v_zero];
       [center; v_one - center; center];
       [v_one - center; v_one - center; center]];
   bez [1%nat; 1%nat; 1%nat] (* 232-248 *)
      [[v_zero; v_one; v_zero];
       [y_max; v_one; y_max];
       [v_zero; v_one; v_one];
       [y_max; v_one; v_one - y_max];
       [v_zero; v_one - x_min; x_min];
       [center; v_one - center; center];
       [v_zero; v_one - x_min; v_one - x_min];
       [center; v_one - center; v_one - center]];
   bez [1%nat; 1%nat; 1%nat] (* 251-267 *)
      [[y_max; v_one; v_one - y_max];
       [v_one - y_max; v_one; v_one - y_max];
       [v_zero; v_one; v_one];
       [v_one; v_one; v_one];
       [center; v_one - center; v_one - center];
       [v_one - center; v_one - center; v_one - center];
       [z_max; v_one - z_max; v_one];
       [v_one - z_max; v_one - z_max; v_one]];
   bez [1%nat; 1%nat; 1%nat] (* 270-286 *)
      [[v_one - center; center; center];
       [v_one; x_max; x_max];
       [v_one - center; center; v_one - center];
       [v_one; x_max; v_one - x_max];
       [v_one - y_min; v_zero; y_min];
       [v_one; v_zero; v_zero];
       [v_one - y_min; v_zero; v_one - y_min];
       [v_one; v_zero; v_one]];
   bez [1%nat; 1%nat; 1%nat] (* 289-305 *)
      [[v_zero; x_min; x_min];
       [center; center; center];
       [v_zero; x_min; v_one - x_min];
       [center; center; v_one - center];
       [v_zero; v_zero; v_zero];
       [y_min; v_zero; y_min];
       [v_zero; v_zero; v_one];
       [y_min; v_zero; v_one - y_min]];
   bez [1%nat; 1%nat; 1%nat] (* 308-324 *)
      [[center; center; v_one - center];
       [v_one - center; center; v_one - center];
       [z_max; z_max; v_one];
       [v_one - z_max; z_max; v_one];
       [y_min; v_zero; v_one - y_min];
       [v_one - y_min; v_zero; v_one - y_min];
       [v_zero; v_zero; v_one];
       [v_one; v_zero; v_one]];
   bez [1%nat; 1%nat; 1%nat] (* 327-343 *)
      [[z_min; z_min; v_zero];
       [v_one - z_min; z_min; v_zero];
       [center; center; center];
       [v_one - center; center; center];
       [v_zero; v_zero; v_zero];
       [v_one; v_zero; v_zero];
       [y_min; v_zero; y_min];
       [v_one - y_min; v_zero; y_min]]])%Qc.

(** cube_void.py 154-247. *)
Definition cube_void_splines (v_zero v_one : Qc) (ctps : list (list Qc)) : tile := (
  [bez [1%nat; 1%nat; 1%nat] (* 155-169 *)
      [[v_zero; v_zero; v_zero];
       [v_one; v_zero; v_zero];
       [v_zero; v_one; v_zero];
       [v_one; v_one; v_zero];
       (nth 0 ctps []);
       (nth 1 ctps []);
       (nth 2 ctps []);
       (nth 3 ctps [])];
   bez [1%nat; 1%nat; 1%nat] (* 170-184 *)
      [(nth 4 ctps []);
       (nth 5 ctps []);
       (nth 6 ctps []);
       (nth 7 ctps []);
       [v_zero; v_zero; v_one];
       [v_one; v_zero; v_one];
       [v_zero; v_one; v_one];
       [v_one; v_one; v_one]];
   bez [1%nat; 1%nat; 1%nat] (* 186-200 *)
      [[v_zero; v_zero; v_zero];
       [v_one; v_zero; v_zero];
       (nth 0 ctps []);
       (nth 1 ctps []);
       [v_zero; v_zero; v_one];
       [v_one; v_zero; v_one];
       (nth 4 ctps []);
       (nth 5 ctps [])];
   bez [1%nat; 1%nat; 1%nat] (* 201-215 *)
      [(nth 2 ctps []);
       (nth 3 ctps []);
       [v_zero; v_one; v_zero];
       [v_one; v_one; v_zero];
       (nth 6 ctps []);
       (nth 7 ctps []);
       [v_zero; v_one; v_one];
       [v_one; v_one; v_one]];
   bez [1%nat; 1%nat; 1%nat] (* 217-231 *)
      [[v_zero; v_zero; v_zero];
       (nth 0 ctps []);
       [v_zero; v_one; v_zero];
       (nth 2 ctps []);
       [v_zero; v_zero; v_one];
       (nth 4 ctps []);
       [v_zero; v_one; v_one];
       (nth 6 ctps [])];
   bez [1%nat; 1%nat; 1%nat] (* 232-246 *)
      [(nth 1 ctps []);
       [v_one; v_zero; v_zero];
       (nth 3 ctps []);
       [v_one; v_one; v_zero];
       (nth 5 ctps []);
       [v_one; v_zero; v_one];
       (nth 7 ctps []);
       [v_one; v_one; v_one]]])%Qc.

(** ellips_v_oid.py 180-333. *)
Definition ellips_splines (v_zero v_one_half v_one : Qc) (ctps : list (list Qc)) : tile := (
  [bez [2%nat; 2%nat; 1%nat] (* 181-205 *)
      [[v_zero; v_zero; v_zero];
       [v_one_half; v_zero; v_zero];
       [v_one; v_zero; v_zero];
       [v_zero; v_one_half; v_zero];
       [v_one_half; v_one_half; v_zero];
       [v_one; v_one_half; v_zero];
       [v_zero; v_one; v_zero];
       [v_one_half; v_one; v_zero];
       [v_one; v_one; v_zero];
       (nth 0 ctps []);
       (nth 1 ctps []);
       (nth 2 ctps []);
       (nth 3 ctps []);
       (nth 4 ctps []);
       (nth 5 ctps []);
       (nth 6 ctps []);
       (nth 7 ctps []);
       (nth 8 ctps [])];
   bez [2%nat; 2%nat; 1%nat] (* 206-230 *)
      [(nth 18 ctps []);
       (nth 19 ctps []);
       (nth 20 ctps []);
       (nth 21 ctps []);
       (nth 22 ctps []);
       (nth 23 ctps []);
       (nth 24 ctps []);
       (nth 25 ctps []);
       (nth 26 ctps []);
       [v_zero; v_zero; v_one];
       [v_one_half; v_zero; v_one];
       [v_one; v_zero; v_one];
       [v_zero; v_one_half; v_one];
       [v_one_half; v_one_half; v_one];
       [v_one; v_one_half; v_one];
       [v_zero; v_one; v_one];
       [v_one_half; v_one; v_one];
       [v_one; v_one; v_one]];
   bez [2%nat; 1%nat; 2%nat] (* 232-256 *)
      [[v_zero; v_zero; v_zero];
       [v_one_half; v_zero; v_zero];
       [v_one; v_zero; v_zero];
       (nth 0 ctps []);
       (nth 1 ctps []);
       (nth 2 ctps []);
       [v_zero; v_zero; v_one_half];
       [v_one_half; v_zero; v_one_half];
       [v_one; v_zero; v_one_half];
       (nth 9 ctps []);
       (nth 10 ctps []);
       (nth 11 ctps []);
       [v_zero; v_zero; v_one];
       [v_one_half; v_zero; v_one];
       [v_one; v_zero; v_one];
       (nth 18 ctps []);
       (nth 19 ctps []);
       (nth 20 ctps [])];
   bez [2%nat; 1%nat; 2%nat] (* 257-281 *)
      [(nth 6 ctps []);
       (nth 7 ctps []);
       (nth 8 ctps []);
       [v_zero; v_one; v_zero];
       [v_one_half; v_one; v_zero];
       [v_one; v_one; v_zero];
       (nth 15 ctps []);
       (nth 16 ctps []);
       (nth 17 ctps []);
       [v_zero; v_one; v_one_half];
       [v_one_half; v_one; v_one_half];
       [v_one; v_one; v_one_half];
       (nth 24 ctps []);
       (nth 25 ctps []);
       (nth 26 ctps []);
       [v_zero; v_one; v_one];
       [v_one_half; v_one; v_one];
       [v_one; v_one; v_one]];
   bez [1%nat; 2%nat; 2%nat] (* 283-307 *)
      [[v_zero; v_zero; v_zero];
       (nth 0 ctps []);
       [v_zero; v_one_half; v_zero];
       (nth 3 ctps []);
       [v_zero; v_one; v_zero];
       (nth 6 ctps []);
       [v_zero; v_zero; v_one_half];
       (nth 9 ctps []);
       [v_zero; v_one_half; v_one_half];
       (nth 12 ctps []);
       [v_zero; v_one; v_one_half];
       (nth 15 ctps []);
       [v_zero; v_zero; v_one];
       (nth 18 ctps []);
       [v_zero; v_one_half; v_one];
       (nth 21 ctps []);
       [v_zero; v_one; v_one];
       (nth 24 ctps [])];
   bez [1%nat; 2%nat; 2%nat] (* 308-332 *)
      [(nth 2 ctps []);
       [v_one; v_zero; v_zero];
       (nth 5 ctps []);
       [v_one; v_one_half; v_zero];
       (nth 8 ctps []);
       [v_one; v_one; v_zero];
       (nth 11 ctps []);
       [v_one; v_zero; v_one_half];
       (nth 14 ctps []);
       [v_one; v_one_half; v_one_half];
       (nth 17 ctps []);
       [v_one; v_one; v_one_half];
       (nth 20 ctps []);
       [v_one; v_zero; v_one];
       (nth 23 ctps []);
       [v_one; v_one_half; v_one];
       (nth 26 ctps []);
       [v_one; v_one; v_one]]])%Qc.

(** hollow_octagon_extrude.py 88-214. *)
Definition octagon3d_splines (v_h_void v_zero v_one_half v_one v_outer_c_h v_inner_c_h : Qc) : tile := (
  let right := (* 90-101 *)
      [[v_h_void + v_one_half; (- v_inner_c_h) + v_one_half; v_zero];
       [v_one; (- v_outer_c_h) + v_one_half; 0];
       [v_h_void + v_one_half; v_inner_c_h + v_one_half; 0];
       [v_one; v_outer_c_h + v_one_half; 0];
       [v_h_void + v_one_half; (- v_inner_c_h) + v_one_half; v_one];
       [v_one; (- v_outer_c_h) + v_one_half; v_one];
       [v_h_void + v_one_half; v_inner_c_h + v_one_half; v_one];
       [v_one; v_outer_c_h + v_one_half; v_one]] in
  let right_top := (* 103-114 *)
      [[v_h_void + v_one_half; v_inner_c_h + v_one_half; v_zero];
       [v_one; v_outer_c_h + v_one_half; v_zero];
       [v_inner_c_h + v_one_half; v_h_void + v_one_half; v_zero];
       [v_outer_c_h + v_one_half; v_one; v_zero];
       [v_h_void + v_one_half; v_inner_c_h + v_one_half; v_one];
       [v_one; v_outer_c_h + v_one_half; v_one];
       [v_inner_c_h + v_one_half; v_h_void + v_one_half; v_one];
       [v_outer_c_h + v_one_half; v_one; v_one]] in
  let top := (* 116-127 *)
      [[v_inner_c_h + v_one_half; v_h_void + v_one_half; v_zero];
       [v_outer_c_h + v_one_half; v_one; v_zero];
       [(- v_inner_c_h) + v_one_half; v_h_void + v_one_half; v_zero];
       [(- v_outer_c_h) + v_one_half; v_one; v_zero];
       [v_inner_c_h + v_one_half; v_h_void + v_one_half; v_one];
       [v_outer_c_h + v_one_half; v_one; v_one];
       [(- v_inner_c_h) + v_one_half; v_h_void + v_one_half; v_one];
       [(- v_outer_c_h) + v_one_half; v_one; v_one]] in
  let bottom_left := (* 129-140 *)
      [[(- v_h_void) + v_one_half; (- v_inner_c_h) + v_one_half; v_zero];
       [v_zero; (- v_outer_c_h) + v_one_half; v_zero];
       [(- v_inner_c_h) + v_one_half; (- v_h_void) + v_one_half; v_zero];
       [(- v_outer_c_h) + v_one_half; v_zero; v_zero];
       [(- v_h_void) + v_one_half; (- v_inner_c_h) + v_one_half; v_one];
       [v_zero; (- v_outer_c_h) + v_one_half; v_one];
       [(- v_inner_c_h) + v_one_half; (- v_h_void) + v_one_half; v_one];
       [(- v_outer_c_h) + v_one_half; v_zero; v_one]] in
  let left := (* 142-153 *)
      [[v_zero; (- v_outer_c_h) + v_one_half; v_zero];
       [(- v_h_void) + v_one_half; (- v_inner_c_h) + v_one_half; v_zero];
       [v_zero; v_outer_c_h + v_one_half; v_zero];
       [(- v_h_void) + v_one_half; v_inner_c_h + v_one_half; v_zero];
       [v_zero; (- v_outer_c_h) + v_one_half; v_one];
       [(- v_h_void) + v_one_half; (- v_inner_c_h) + v_one_half; v_one];
       [v_zero; v_outer_c_h + v_one_half; v_one];
       [(- v_h_void) + v_one_half; v_inner_c_h + v_one_half; v_one]] in
  let top_left := (* 155-166 *)
      [[v_zero; v_outer_c_h + v_one_half; v_zero];
       [(- v_h_void) + v_one_half; v_inner_c_h + v_one_half; v_zero];
       [(- v_outer_c_h) + v_one_half; v_one; v_zero];
       [(- v_inner_c_h) + v_one_half; v_h_void + v_one_half; v_zero];
       [v_zero; v_outer_c_h + v_one_half; v_one];
       [(- v_h_void) + v_one_half; v_inner_c_h + v_one_half; v_one];
       [(- v_outer_c_h) + v_one_half; v_one; v_one];
       [(- v_inner_c_h) + v_one_half; v_h_void + v_one_half; v_one]] in
  let bottom := (* 168-179 *)
      [[v_outer_c_h + v_one_half; v_zero; v_zero];
       [v_inner_c_h + v_one_half; (- v_h_void) + v_one_half; v_zero];
       [(- v_outer_c_h) + v_one_half; v_zero; v_zero];
       [(- v_inner_c_h) + v_one_half; (- v_h_void) + v_one_half; v_zero];
       [v_outer_c_h + v_one_half; v_zero; v_one];
       [v_inner_c_h + v_one_half; (- v_h_void) + v_one_half; v_one];
       [(- v_outer_c_h) + v_one_half; v_zero; v_one];
       [(- v_inner_c_h) + v_one_half; (- v_h_void) + v_one_half; v_one]] in
  let bottom_right := (* 181-192 *)
      [[v_inner_c_h + v_one_half; (- v_h_void) + v_one_half; v_zero];
       [v_outer_c_h + v_one_half; v_zero; v_zero];
       [v_h_void + v_one_half; (- v_inner_c_h) + v_one_half; v_zero];
       [v_one; (- v_outer_c_h) + v_one_half; v_zero];
       [v_inner_c_h + v_one_half; (- v_h_void) + v_one_half; v_one];
       [v_outer_c_h + v_one_half; v_zero; v_one];
       [v_h_void + v_one_half; (- v_inner_c_h) + v_one_half; v_one];
       [v_one; (- v_outer_c_h) + v_one_half; v_one]] in
  [bez [1%nat; 1%nat; 1%nat] (* 194-194 *)
      right;
   bez [1%nat; 1%nat; 1%nat] (* 196-198 *)
      right_top;
   bez [1%nat; 1%nat; 1%nat] (* 200-200 *)
      bottom;
   bez [1%nat; 1%nat; 1%nat] (* 202-204 *)
      bottom_left;
   bez [1%nat; 1%nat; 1%nat] (* 206-206 *)
      left;
   bez [1%nat; 1%nat; 1%nat] (* 208-208 *)
      top_left;
   bez [1%nat; 1%nat; 1%nat] (* 210-210 *)
      top;
   bez [1%nat; 1%nat; 1%nat] (* 212-214 *)
      bottom_right])%Qc.
