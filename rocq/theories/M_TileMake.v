(** Model of create_tile of splinepy/microstructure/tiles: argument checks,
    auxiliary values, choice of the closing tile.  Arguments that fail an
    isinstance(x, float) check are not represented. *)
From Coq Require Import String List Arith ZArith QArith Qcanon.
From Verif Require Import Base BaseQc S_Grid S_Spline S_Value M_Tiles M_Tile2D M_Tile3D.
Import ListNotations.
Local Open Scope list_scope.
Local Open Scope nat_scope.

Definition bind_derivatives (r : option bool) (k : made) : made :=
  match r with None => Raised TypeError | Some _ => k end.

(** ** Chi, chi.py 46-150 *)
Definition chi_value (m : libm) (p : array2) : tile :=
  let alpha := (at2 p 0 0 + pi m / qc 4 1)%Qc in
  let r := sqrt m (qc 1 8) in
  chi_splines 0 (qc 1 2) (r * sin m alpha) (r * cos m alpha).
(** 78-84: the sine and cosine of the sensitivity itself. *)
Definition chi_deriv (m : libm) (d : array2) : tile :=
  let alpha := at2 d 0 0 in
  let r := sqrt m (qc 1 8) in
  chi_splines 0 0 (r * cos m alpha) (- r * sin m alpha).
Definition chi_create (m : libm) (params : option array2) (sens : option array3) : made :=
  let half_pi := (pi m * qc 1 2)%Qc in
  let p := match params with None => [[(pi m / qc 8 1)%Qc]] | Some p => p end in
  if match params with
     | None => false
     | Some p => negb (forallb (fun x => qleb (- half_pi) x) (concat p) && forallb (fun x => qltb x half_pi) (concat p))
     end then Raised ValueError
  else if negb (check_params 1 1 p) then Raised TypeError
  else bind_derivatives (check_param_derivatives 1 1 sens) (loop (chi_value m) (chi_deriv m) p sens).

(** ** Cross2D, cross_2d.py 411-571 *)
Definition mean4 (p : array2) : Qc := ((at2 p 0 0 + at2 p 1 0 + at2 p 2 0 + at2 p 3 0) / qc 4 1)%Qc.
(** 465-474 *)
Definition cross2d_value (ce : Qc) (p : array2) : tile :=
  let center_r := (mean4 p * ce)%Qc in
  let hd_center := (qc 1 2 * (qc 1 2 + center_r))%Qc in
  cross2d_splines (qc 1 2) center_r hd_center (at2 p 0 0) (at2 p 1 0) (at2 p 2 0) (at2 p 3 0).
(** 475-486 *)
Definition cross2d_deriv (ce : Qc) (d : array2) : tile :=
  let center_r := (mean4 d * ce)%Qc in
  let hd_center := (qc 1 2 * center_r)%Qc in
  cross2d_splines 0 center_r hd_center (at2 d 0 0) (at2 d 1 0) (at2 d 2 0) (at2 d 3 0).

(** 127-371: the blocks by closure and the parameter each one reads. *)
Definition cross2d_closing (closure : string) :
    option ((Qc -> Qc -> Qc -> Qc -> Qc -> Qc -> Qc -> Qc -> Qc -> Qc -> tile) * nat) :=
  if string_dec closure "x_min" then Some (cross2d_x_min, 1)
  else if string_dec closure "x_max" then Some (cross2d_x_max, 0)
  else if string_dec closure "y_min" then Some (cross2d_y_min, 3)
  else if string_dec closure "y_max" then Some (cross2d_y_max, 2)
  else None.
(** 103-113 and 114-125 *)
Definition cross2d_closing_value f (fh bw : Qc) (branch : Qc) : tile :=
  let top := ((1 + fh) * qc 1 2)%Qc in
  f fh bw (1 - bw)%Qc (1 - fh)%Qc top (1 - top)%Qc (qc 1 2) 1%Qc 0%Qc branch.
Definition cross2d_closing_deriv (f : Qc -> Qc -> Qc -> Qc -> Qc -> Qc -> Qc -> Qc -> Qc -> Qc -> tile) (branch : Qc) : tile :=
  f 0%Qc 0%Qc 0%Qc 0%Qc 0%Qc 0%Qc 0%Qc 0%Qc 0%Qc branch.
(** 31-378; the parameters were checked by create_tile. *)
Definition cross2d_close (closure : string) (bw fh : Qc) (p : array2) (sens : option array3) : made :=
  if negb (all_between 0 (qc 1 2) p) then Raised ValueError
  else if negb (qltb 0 bw && qltb bw (qc 1 2)) then Raised ValueError
  else if negb (qltb 0 fh && qltb fh 1) then Raised ValueError
  else match cross2d_closing closure with
       | None => Raised NotImplementedError
       | Some (f, k) =>
           loop (fun p => cross2d_closing_value f fh bw (at2 p k 0))
                (fun d => cross2d_closing_deriv f (at2 d k 0)) p sens
       end.
(** 411-571; boundary_width and filling_height default to 0.1 and 0.5. *)
Definition cross2d_create (ce : Qc) (closure : option string) (bw fh : Qc)
    (params : option array2) (sens : option array3) : made :=
  if negb (qltb (qc 1 2) ce && qltb ce (qc 3 2)) then Raised ValueError
  else
    let max_radius := qmin (qc 1 2) (qc 1 2 / ce) in
    let p := match params with None => full 4 1 (qc 1 5) | Some p => p end in
    if negb (check_params 4 1 p) then Raised TypeError
    else if negb (all_between 0 max_radius p) then Raised ValueError
    else bind_derivatives (check_param_derivatives 4 1 sens)
      match closure with
      | Some c => cross2d_close c bw fh p sens
      | None => loop (cross2d_value ce) (cross2d_deriv ce) p sens
      end.

(** ** DoubleLattice, double_lattice.py 25-383 *)
Definition double_lattice_value (m : libm) (cl : Qc) (p : array2) : tile :=
  double_lattice_splines (sqrt m (qc 2 1)) cl (at2 p 0 0) (at2 p 0 1) (qc 1 2) 1 0.
Definition double_lattice_deriv (m : libm) (d : array2) : tile :=
  double_lattice_splines (sqrt m (qc 2 1)) 0 (at2 d 0 0) (at2 d 0 1) 0 0 0.
Definition double_lattice_create (m : libm) (cl : Qc) (params : option array2) (sens : option array3) : made :=
  if negb (qltb 0 cl && qltb cl 1) then Raised ValueError
  else
    let p := match params with None => full 1 2 (qc 1 10) | Some p => p end in
    if negb (all_between 0 (qc 1 2 / (1 + sqrt m (qc 2 1)))%Qc p) then Raised ValueError
    else if negb (check_params 1 2 p) then Raised TypeError
    else bind_derivatives (check_param_derivatives 1 2 sens)
           (loop (double_lattice_value m cl) (double_lattice_deriv m) p sens).

(** ** HollowOctagon, hollow_octagon.py 22-574 *)
Definition octagon_of (f : Qc -> Qc -> Qc -> Qc -> Qc -> Qc -> tile) (cl h : Qc) : tile :=
  f h 0%Qc (qc 1 2) 1%Qc (cl * qc 1 2)%Qc (cl * h)%Qc.
(** 88-381: for any other name none of the arrays is assigned. *)
Definition octagon_closing (closure : string) : option (Qc -> Qc -> Qc -> Qc -> Qc -> Qc -> tile) :=
  if string_dec closure "x_min" then Some octagon_x_min
  else if string_dec closure "x_max" then Some octagon_x_max
  else if string_dec closure "y_min" then Some octagon_y_min
  else if string_dec closure "y_max" then Some octagon_y_max
  else None.
Definition octagon_create (cl : Qc) (closure : option string) (params : option array2) (sens : option array3) : made :=
  if negb (qltb 0 cl && qltb cl (qc 99 100)) then Raised ValueError
  else
    let p := match params with None => full 1 1 (qc 1 5) | Some p => p end in
    match sens with
    | Some _ => Raised NotImplementedError
    | None =>
        if negb (check_params 1 1 p) then Raised TypeError
        else if negb (all_between 0 (qc 1 2) p) then Raised ValueError
        else match closure with
             | None => Made (octagon_of octagon_splines cl (at2 p 0 0)) None
             | Some c =>
                 if negb (qltb (qc 1 100) (at2 p 0 0) && qltb (at2 p 0 0) (qc 1 2)) then Raised ValueError
                 else match octagon_closing c with
                      | Some f => Made (octagon_of f cl (at2 p 0 0)) None
                      | None => Raised UnboundLocalError
                      end
             end
    end.

(** ** Snappy, snappy.py 23-518.  _closing_tile is handed parameters=None and
    hands it to check_params (64), which raises TypeError. *)
Definition snappy_create (cl a b c r : Qc) (closure : option string) (params : option array2)
    (sens : option array3) : made :=
  if negb (forallb (fun x => qleb 0 x) [a; b; c; r; cl]) then Raised ValueError
  else if negb (qltb 0 cl && qltb cl (qc 49 100)) then Raised ValueError
  else if negb (qltb (r + cl)%Qc (qc 1 2)) then Raised ValueError
  else if negb (qltb (qc 2 1 * c + b)%Qc 1) || qltb c a then Raised ValueError
  else match params, sens, closure with
       | Some _, _, _ => Raised NotImplementedError
       | _, Some _, _ => Raised NotImplementedError
       | _, _, Some _ => Raised TypeError
       | _, _, None =>
           Made (snappy_splines 0 (qc 1 2) 1 (cl * qc 1 2) (1 - cl * qc 1 2) a (1 - a) b r)%Qc None
       end.

(** ** Cross3D, cross_3d.py 32-743, and Cross3DLinear, cross_3d_linear.py 32-673 *)
Definition mean6 (p : array2) : Qc :=
  ((at2 p 0 0 + at2 p 1 0 + at2 p 2 0 + at2 p 3 0 + at2 p 4 0 + at2 p 5 0) / qc 6 1)%Qc.
Definition cross3d_value (ce : Qc) (p : array2) : tile :=
  let center_r := (ce * mean6 p)%Qc in
  cross3d_splines (qc 1 2) center_r (qc 1 2 * (qc 1 2 + center_r))%Qc
    (at2 p 0 0) (at2 p 1 0) (at2 p 2 0) (at2 p 3 0) (at2 p 4 0) (at2 p 5 0) (repeat (qc 1 2) 3).
Definition cross3d_deriv (ce : Qc) (d : array2) : tile :=
  let center_r := (ce * mean6 d)%Qc in
  cross3d_splines 0 center_r (qc 1 2 * center_r)%Qc
    (at2 d 0 0) (at2 d 1 0) (at2 d 2 0) (at2 d 3 0) (at2 d 4 0) (at2 d 5 0) (repeat 0%Qc 3).
Definition cross3dlin_value (ce : Qc) (p : array2) : tile :=
  cross3dlin_splines (qc 1 2) (ce * mean6 p)%Qc
    (at2 p 0 0) (at2 p 1 0) (at2 p 2 0) (at2 p 3 0) (at2 p 4 0) (at2 p 5 0) (repeat (qc 1 2) 3).
Definition cross3dlin_deriv (ce : Qc) (d : array2) : tile :=
  cross3dlin_splines 0 (ce * mean6 d)%Qc
    (at2 d 0 0) (at2 d 1 0) (at2 d 2 0) (at2 d 3 0) (at2 d 4 0) (at2 d 5 0) (repeat 0%Qc 3).
(** cross_3d.py 100-124; cross_3d_linear.py 100-120 *)
Definition cross3d_closing_value f (bw fh branch : Qc) : tile :=
  let width := (1 - qc 2 1 * bw)%Qc in
  let top := ((1 + fh) * qc 1 2)%Qc in
  f false bw fh (1 - bw)%Qc (1 - fh)%Qc width top (1 - top)%Qc (width * qc 1 2)%Qc 0%Qc (qc 1 2) 1%Qc branch.
Definition cross3d_closing_deriv
    (f : bool -> Qc -> Qc -> Qc -> Qc -> Qc -> Qc -> Qc -> Qc -> Qc -> Qc -> Qc -> Qc -> tile) (branch : Qc) : tile :=
  f true 0%Qc 0%Qc 0%Qc 0%Qc 0%Qc 0%Qc 0%Qc 0%Qc 0%Qc 0%Qc 0%Qc branch.
Definition cross3dlin_closing_value f (bw fh branch : Qc) : tile :=
  let width := (1 - qc 2 1 * bw)%Qc in
  f false bw fh (1 - bw)%Qc (1 - fh)%Qc width (width * qc 1 2)%Qc 0%Qc (qc 1 2) 1%Qc branch.
Definition cross3dlin_closing_deriv
    (f : bool -> Qc -> Qc -> Qc -> Qc -> Qc -> Qc -> Qc -> Qc -> Qc -> Qc -> tile) (branch : Qc) : tile :=
  f true 0%Qc 0%Qc 0%Qc 0%Qc 0%Qc 0%Qc 0%Qc 0%Qc 0%Qc branch.
(** The checks both classes share: cross_3d.py 517-565, 68-98;
    cross_3d_linear.py 473-521, 68-98. *)
Definition cross3d_checks (ce : Qc) (closure : option string) (bw fh : Qc)
    (params : option array2) (sens : option array3)
    (plain : array2 -> made) (closing : string -> option (array2 -> made)) : made :=
  if negb (qltb (qc 1 2) ce && qltb ce (qc 3 2)) then Raised ValueError
  else
    let max_radius := qmin (qc 1 2) (qc 1 2 / ce) in
    let p := match params with None => full 6 1 (qc 1 5) | Some p => p end in
    if negb (check_params 6 1 p) then Raised TypeError
    else if existsb (fun x => qleb x 0) (concat p) || existsb (fun x => qltb max_radius x) (concat p) then Raised ValueError
    else bind_derivatives (check_param_derivatives 6 1 sens)
      match closure with
      | None => plain p
      | Some c =>
          if negb (all_between 0 (qc 1 2) p) then Raised ValueError
          else if negb (qltb 0 bw && qltb bw (qc 1 2)) then Raised ValueError
          else if negb (qltb 0 fh && qltb fh 1) then Raised ValueError
          else match closing c with None => Raised NotImplementedError | Some f => f p end
      end.
Definition cross3d_create ce closure bw fh params sens : made :=
  cross3d_checks ce closure bw fh params sens
    (fun p => loop (cross3d_value ce) (cross3d_deriv ce) p sens)
    (fun c =>
      if string_dec c "z_min" then
        Some (fun p => loop (fun p => cross3d_closing_value cross3d_z_min bw fh (at2 p 5 0))
                            (fun d => cross3d_closing_deriv cross3d_z_min (at2 d 5 0)) p sens)
      else if string_dec c "z_max" then
        Some (fun p => loop (fun p => cross3d_closing_value cross3d_z_max bw fh (at2 p 4 0))
                            (fun d => cross3d_closing_deriv cross3d_z_max (at2 d 4 0)) p sens)
      else None).
Definition cross3dlin_create ce closure bw fh params sens : made :=
  cross3d_checks ce closure bw fh params sens
    (fun p => loop (cross3dlin_value ce) (cross3dlin_deriv ce) p sens)
    (fun c =>
      if string_dec c "z_min" then
        Some (fun p => loop (fun p => cross3dlin_closing_value cross3dlin_z_min bw fh (at2 p 5 0))
                            (fun d => cross3dlin_closing_deriv cross3dlin_z_min (at2 d 5 0)) p sens)
      else if string_dec c "z_max" then
        Some (fun p => loop (fun p => cross3dlin_closing_value cross3dlin_z_max bw fh (at2 p 4 0))
                            (fun d => cross3dlin_closing_deriv cross3dlin_z_max (at2 d 4 0)) p sens)
      else None).

(** ** HollowCube, hollow_cube.py 32-352.  The check of parameters[:, 2:]
    (74-78) concerns an empty array: numpy before 2.2 takes it for passed. *)
Definition hollow_cube_of (one : Qc) (p : array2) : tile :=
  hollow_cube_splines 0 one (at2 p 0 0) (at2 p 1 0) (at2 p 2 0) (at2 p 3 0) (at2 p 4 0) (at2 p 5 0) (at2 p 6 0).
Definition hollow_cube_create (params : option array2) (sens : option array3) : made :=
  let p := match params with None => full 7 1 (qc 1 5) | Some p => p end in
  if negb (check_params 7 1 p) then Raised TypeError
  else if negb (all_between 0 (qc 1 2) p) then Raised ValueError
  else bind_derivatives (check_param_derivatives 7 1 sens) (loop (hollow_cube_of 1) (hollow_cube_of 0) p sens).

(** ** CubeVoid, cube_void.py 25-255, and EllipsVoid, ellips_v_oid.py 27-341 *)
Definition matrix := list (list Qc).
Definition dot (u v : list Qc) : Qc := qsum (map (fun xy => fst xy * snd xy)%Qc (combine u v)).
Definition column (m : matrix) (j : nat) : list Qc := map (fun r => nth j r 0%Qc) m.
Definition mat_mul (a b : matrix) : matrix := map (fun r => map (fun j => dot r (column b j)) (seq 0 3)) a.
Definition mat_add (a b : matrix) : matrix := map (fun xy => row_add (fst xy) (snd xy)) (combine a b).
Definition mat_scale (x : Qc) (a : matrix) : matrix := map (map (Qcmult x)) a.
(** einsum "ij,kj->ki": the matrix applied to every row. *)
Definition apply_rows (a : matrix) (pts : list (list Qc)) : list (list Qc) := map (fun p => map (fun r => dot r p) a) pts.
Definition diag3 (x y z : Qc) : matrix := [[x; 0; 0]; [0; y; 0]; [0; 0; z]]%Qc.
(** cube_void.py 43-57; ellips_v_oid.py 69-83 *)
Definition rotation_x (m : libm) (t : Qc) : matrix :=
  [[1; 0; 0]; [0; cos m t; sin m t]; [0; - sin m t; cos m t]]%Qc.
Definition rotation_x_deriv (m : libm) (t : Qc) : matrix :=
  [[0; 0; 0]; [0; - sin m t; cos m t]; [0; - cos m t; - sin m t]]%Qc.
Definition rotation_y (m : libm) (t : Qc) : matrix :=
  [[cos m t; 0; - sin m t]; [0; 1; 0]; [sin m t; 0; cos m t]]%Qc.
Definition rotation_y_deriv (m : libm) (t : Qc) : matrix :=
  [[- sin m t; 0; - cos m t]; [0; 1; 0]; [cos m t; 0; - sin m t]]%Qc.
(** cube_void.py 30-41 *)
Definition cube_points : list (list Qc) :=
  let h := qc 1 2 in
  [[- h; - h; - h]; [h; - h; - h]; [- h; h; - h]; [h; h; - h];
   [- h; - h; h]; [h; - h; h]; [- h; h; h]; [h; h; h]]%Qc.
(** ellips_v_oid.py 31-67; 3**0.5 is the square root of three. *)
Definition sphere_points (m : libm) : list (list Qc) :=
  let s3 := sqrt m (qc 3 1) in
  let c0 := (qc 1 2 / s3)%Qc in
  let a1 := (s3 / qc 2 1 * qc 1 2)%Qc in
  let a0 := (a1 * qc 2 1)%Qc in
  [[- c0; - c0; - c0]; [0; - a1; - a1]; [c0; - c0; - c0];
   [- a1; 0; - a1]; [0; 0; - a0]; [a1; 0; - a1];
   [- c0; c0; - c0]; [0; a1; - a1]; [c0; c0; - c0];
   [- a1; - a1; 0]; [0; - a0; 0]; [a1; - a1; 0];
   [- a0; 0; 0]; [0; 0; 0]; [a0; 0; 0];
   [- a1; a1; 0]; [0; a0; 0]; [a1; a1; 0];
   [- c0; - c0; c0]; [0; - a1; a1]; [c0; - c0; c0];
   [- a1; 0; a1]; [0; 0; a0]; [a1; 0; a1];
   [- c0; c0; c0]; [0; a1; a1]; [c0; c0; c0]]%Qc.
(** The void's control points (cube_void.py 119-129) and their derivatives
    (130-151), both before v_one_half is added; [q] = r_x, r_yz, rot_x, rot_y. *)
Definition void_points (m : libm) (pts : list (list Qc)) (q : list Qc) : list (list Qc) :=
  apply_rows (mat_mul (mat_mul (rotation_y m (nth 3 q 0%Qc)) (rotation_x m (nth 2 q 0%Qc)))
                      (diag3 (nth 0 q 0%Qc) (nth 1 q 0%Qc) (nth 1 q 0%Qc))) pts.
Definition void_derivs (m : libm) (pts : list (list Qc)) (q dq : list Qc) : list (list Qc) :=
  let diag := diag3 (nth 0 q 0%Qc) (nth 1 q 0%Qc) (nth 1 q 0%Qc) in
  let ddiag := diag3 (nth 0 dq 0%Qc) (nth 1 dq 0%Qc) (nth 1 dq 0%Qc) in
  let rx := rotation_x m (nth 2 q 0%Qc) in
  let ry := rotation_y m (nth 3 q 0%Qc) in
  apply_rows
    (mat_add (mat_add
       (mat_scale (nth 3 dq 0%Qc) (mat_mul (mat_mul (rotation_y_deriv m (nth 3 q 0%Qc)) rx) diag))
       (mat_scale (nth 2 dq 0%Qc) (mat_mul (mat_mul ry (rotation_x_deriv m (nth 2 q 0%Qc))) diag)))
       (mat_mul (mat_mul ry rx) ddiag)) pts.
(** The parameters are flattened and not checked otherwise. *)
Definition void_create (m : libm) (pts : list (list Qc)) (of_points : Qc -> Qc -> Qc -> list (list Qc) -> tile)
    (params : option array2) (sens : option array3) : made :=
  let q := match params with None => [qc 1 2; qc 1 2; 0; 0]%Qc | Some p => concat p end in
  if negb (length q =? 4) then Raised ValueError
  else bind_derivatives (check_param_derivatives 1 4 sens)
    (Made (of_points 0%Qc (qc 1 2) 1%Qc (shift (repeat (qc 1 2) 3) (void_points m pts q)))
          (option_map (fun d => map (fun i =>
              of_points 0%Qc 0%Qc 0%Qc (shift (repeat 0%Qc 3) (void_derivs m pts q (nth 0 (slice d i) []))))
              (seq 0 (n_derivatives d))) sens)).
Definition cube_void_create (m : libm) :=
  void_create m cube_points (fun zero half one => cube_void_splines zero one).
Definition ellips_create (m : libm) := void_create m (sphere_points m) ellips_splines.

(** ** HollowOctagonExtrude, hollow_octagon_extrude.py 22-216; [closure] is among
    the ignored arguments. *)
Definition octagon3d_create (cl : Qc) (params : option array2) (sens : option array3) : made :=
  if negb (qltb 0 cl && qltb cl (qc 99 100)) then Raised ValueError
  else
    let p := match params with None => full 1 1 (qc 1 5) | Some p => p end in
    match sens with
    | Some _ => Raised NotImplementedError
    | None =>
        if negb (check_params 1 1 p) then Raised TypeError
        else if negb (qltb (qc 1 100) (at2 p 0 0) && qltb (at2 p 0 0) (qc 1 2)) then Raised ValueError
        else Made (octagon_of octagon3d_splines cl (at2 p 0 0)) None
    end.
