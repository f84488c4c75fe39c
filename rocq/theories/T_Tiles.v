(** Theorems about microstructure tiles (C73 to C77). *)
From Coq Require Import String List Arith Lia ZArith QArith Qcanon Bool.
From Verif Require Import Base BaseQc S_Grid M_Grid S_Spline S_Value S_Deriv M_Core S_Integrate M_Tiles M_Tile2D M_Tile3D M_TileMake S_Tiles S_TileLimits P_Tile2D P_TileLattice P_TileSnappy P_TileOctagon P_TileCross3 P_TileWall P_Tile3D P_TileVoid P_TileNot P_TileTurned P_TileTouch P_Tiles W_Tiles.
Import ListNotations.
Local Open Scope list_scope.
Local Open Scope nat_scope.



(** ** C73: neighbouring tiles conform *)
Theorem C73_cross2d : forall ce ce' cl cl' bw bw' fh fh' p p' s s' T T' D D' a,
  cross2d_create ce cl bw fh (Some p) s = Made T D -> cross2d_create ce' cl' bw' fh' (Some p') s' = Made T' D' -> a < 2 ->
  (open_above a cl /\ open_below a cl' /\ at2 p (2 * a + 1) 0 = at2 p' (2 * a) 0) \/
  (beside 2 a cl /\ cl' = cl /\ bw' = bw /\ fh' = fh) -> glued 2 a T T' /\ touches a 1%Qc T.
Proof. exact C73_cross2d_holds. Qed.
Print Assumptions C73_cross2d.

Theorem C73_cross3d : forall ce ce' cl cl' bw bw' fh fh' p p' s s' T T' D D' a,
  cross3d_create ce cl bw fh (Some p) s = Made T D -> cross3d_create ce' cl' bw' fh' (Some p') s' = Made T' D' ->
  thinner ce p -> thinner ce' p' -> a < 3 ->
  (open_above a cl /\ open_below a cl' /\ at2 p (2 * a + 1) 0 = at2 p' (2 * a) 0) \/
  (beside 3 a cl /\ cl' = cl /\ bw' = bw /\ fh' = fh) -> glued 3 a T T' /\ touches a 1%Qc T.
Proof. exact C73_cross3d_holds. Qed.
Print Assumptions C73_cross3d.

Theorem C73_cross3d_linear : forall ce ce' cl cl' bw bw' fh fh' p p' s s' T T' D D' a,
  cross3dlin_create ce cl bw fh (Some p) s = Made T D -> cross3dlin_create ce' cl' bw' fh' (Some p') s' = Made T' D' ->
  thinner ce p -> thinner ce' p' -> a < 3 ->
  (open_above a cl /\ open_below a cl' /\ at2 p (2 * a + 1) 0 = at2 p' (2 * a) 0) \/
  (beside 3 a cl /\ cl' = cl /\ bw' = bw /\ fh' = fh) -> glued 3 a T T' /\ touches a 1%Qc T.
Proof. exact C73_cross3d_linear_holds. Qed.
Print Assumptions C73_cross3d_linear.

Theorem C73_double_lattice : forall m m' cl p p' s s' T T' D D' a, (0 < sqrt m (qc 2 1))%Qc -> (0 < sqrt m' (qc 2 1))%Qc ->
  double_lattice_create m cl (Some p) s = Made T D -> double_lattice_create m' cl (Some p') s' = Made T' D' -> a < 2 -> glued 2 a T T' /\ touches a 1%Qc T.
Proof. exact C73_double_lattice_holds. Qed.
Print Assumptions C73_double_lattice.

Theorem C73_hollow_octagon : forall cl c c' p p' s s' T T' D D' a,
  octagon_create cl c (Some p) s = Made T D -> octagon_create cl c' (Some p') s' = Made T' D' -> a < 2 ->
  (open_above a c /\ open_below a c') \/ (beside 2 a c /\ c' = c) -> glued 2 a T T' /\ touches a 1%Qc T.
Proof. exact C73_hollow_octagon_holds. Qed.
Print Assumptions C73_hollow_octagon.

Theorem C73_hollow_octagon_extrude : forall cl p p' s s' T T' D D' a,
  octagon3d_create cl (Some p) s = Made T D -> octagon3d_create cl (Some p') s' = Made T' D' -> a < 3 ->
  (a = 2 -> p' = p) -> glued 3 a T T' /\ touches a 1%Qc T.
Proof. exact C73_hollow_octagon_extrude_holds. Qed.
Print Assumptions C73_hollow_octagon_extrude.

Theorem C73_snappy_above : forall cl a b c r a' b' c' r' n p s T D n' p' s' T' D',
  snappy_create cl a b c r n p s = Made T D -> snappy_create cl a' b' c' r' n' p' s' = Made T' D' ->
  (0 < a -> 0 < b -> b < qc 1 2 -> 0 < a' -> 0 < b' -> b' < qc 1 2 -> glued 2 1 T T' /\ touches 1 1%Qc T)%Qc.
Proof. exact C73_snappy_above_holds. Qed.
Print Assumptions C73_snappy_above.

Theorem C73_snappy_right : forall cl cl' a b c r c' r' n p s T D n' p' s' T' D',
  snappy_create cl a b c r n p s = Made T D -> snappy_create cl' a b c' r' n' p' s' = Made T' D' ->
  (0 < a -> 0 < b -> b < qc 1 2 -> glued 2 0 T T' /\ touches 0 1%Qc T)%Qc.
Proof. exact C73_snappy_right_holds. Qed.
Print Assumptions C73_snappy_right.

Theorem C73_chi : forall m m' p s p' s' T T' D D' a,
  chi_create m (Some p) s = Made T D -> chi_create m' (Some p') s' = Made T' D' -> a < 2 -> glued 2 a T T' /\ touches a 1%Qc T.
Proof. exact C73_chi_holds. Qed.
Print Assumptions C73_chi.

Theorem C73_hollow_cube : forall p p' s s' T T' D D' a,
  hollow_cube_create (Some p) s = Made T D -> hollow_cube_create (Some p') s' = Made T' D' -> a < 3 ->
  at2 p (2 * a + 1) 0 = at2 p' (2 * a) 0 -> glued 3 a T T' /\ touches a 1%Qc T.
Proof. exact C73_hollow_cube_holds. Qed.
Print Assumptions C73_hollow_cube.

Theorem C73_cube_void : forall m m' p p' s s' T T' D D' a,
  cube_void_create m (Some p) s = Made T D -> cube_void_create m' (Some p') s' = Made T' D' ->
  bounded_trig m -> bounded_trig m' -> void_fits (qc 1 2) p -> void_fits (qc 1 2) p' -> a < 3 -> glued 3 a T T' /\ touches a 1%Qc T.
Proof. exact C73_cube_void_holds. Qed.
Print Assumptions C73_cube_void.

Theorem C73_ellips_void : forall m m' p p' s s' T T' D D' a,
  ellips_create m (Some p) s = Made T D -> ellips_create m' (Some p') s' = Made T' D' ->
  bounded_trig m -> bounded_trig m' -> root3_bounds m -> root3_bounds m' -> void_fits 1%Qc p -> void_fits 1%Qc p' -> a < 3 -> glued 3 a T T' /\ touches a 1%Qc T.
Proof. exact C73_ellips_void_holds. Qed.
Print Assumptions C73_ellips_void.

(** ** C74: the tile stays in its cell *)
Theorem C74_cross2d : forall ce cl bw fh p s T D, cross2d_create ce cl bw fh (Some p) s = Made T D -> inside_cell 2 T.
Proof. exact C74_cross2d_holds. Qed.
Print Assumptions C74_cross2d.

Theorem C74_cross3d : forall ce cl bw fh p s T D, cross3d_create ce cl bw fh (Some p) s = Made T D -> inside_cell 3 T.
Proof. exact C74_cross3d_holds. Qed.
Print Assumptions C74_cross3d.

Theorem C74_cross3d_linear : forall ce cl bw fh p s T D, cross3dlin_create ce cl bw fh (Some p) s = Made T D -> inside_cell 3 T.
Proof. exact C74_cross3d_linear_holds. Qed.
Print Assumptions C74_cross3d_linear.

Theorem C74_double_lattice : forall m cl p s T D, double_lattice_create m cl (Some p) s = Made T D -> (0 < sqrt m (qc 2 1))%Qc -> inside_cell 2 T.
Proof. exact C74_double_lattice_holds. Qed.
Print Assumptions C74_double_lattice.

Theorem C74_hollow_octagon : forall cl c p s T D, octagon_create cl c (Some p) s = Made T D -> inside_cell 2 T.
Proof. exact C74_hollow_octagon_holds. Qed.
Print Assumptions C74_hollow_octagon.

Theorem C74_hollow_octagon_extrude : forall cl p s T D, octagon3d_create cl (Some p) s = Made T D -> inside_cell 3 T.
Proof. exact C74_hollow_octagon_extrude_holds. Qed.
Print Assumptions C74_hollow_octagon_extrude.

Theorem C74_snappy_partial : forall cl a b c r n p s T D, snappy_create cl a b c r n p s = Made T D -> (b <= qc 1 2)%Qc -> inside_cell 2 T.
Proof. exact C74_snappy_partial_holds. Qed.
Print Assumptions C74_snappy_partial.

Theorem C74_snappy_refuted : exists T, snappy_create (qc 1 10) 0%Qc (qc 3 5) (qc 1 10) (qc 1 10) None None None = Made T None /\ ~ inside_cell 2 T.
Proof. exact C74_snappy_refuted_holds. Qed.
Print Assumptions C74_snappy_refuted.

Theorem C74_chi : forall m p s T D, bounded_trig m -> (0 <= sqrt m (qc 1 8) /\ sqrt m (qc 1 8) <= qc 1 2)%Qc ->
  chi_create m (Some p) s = Made T D -> inside_cell 2 T.
Proof. exact C74_chi_holds. Qed.
Print Assumptions C74_chi.

Theorem C74_hollow_cube : forall p s T D, hollow_cube_create (Some p) s = Made T D -> inside_cell 3 T.
Proof. exact C74_hollow_cube_holds. Qed.
Print Assumptions C74_hollow_cube.

Theorem C74_cube_void_partial : forall m p s T D, cube_void_create m (Some p) s = Made T D -> bounded_trig m -> void_fits (qc 1 2) p -> inside_cell 3 T.
Proof. exact C74_cube_void_partial_holds. Qed.
Print Assumptions C74_cube_void_partial.

Theorem C74_cube_void_refuted : forall m, cos m 0%Qc = 1%Qc -> sin m 0%Qc = 0%Qc ->
  exists p T, cube_void_create m (Some p) None = Made T None /\ ~ inside_cell 3 T.
Proof. exact C74_cube_void_refuted_holds. Qed.
Print Assumptions C74_cube_void_refuted.

Theorem C74_ellips_void_partial : forall m p s T D, ellips_create m (Some p) s = Made T D -> bounded_trig m -> root3_bounds m -> void_fits 1%Qc p -> inside_cell 3 T.
Proof. exact C74_ellips_void_partial_holds. Qed.
Print Assumptions C74_ellips_void_partial.

Theorem C74_ellips_void_refuted : forall m, cos m 0%Qc = 1%Qc -> sin m 0%Qc = 0%Qc -> root3_bounds m ->
  exists p T, ellips_create m (Some p) None = Made T None /\ ~ inside_cell 3 T.
Proof. exact C74_ellips_void_refuted_holds. Qed.
Print Assumptions C74_ellips_void_refuted.

(** ** C75: derivatives of tiles *)
Theorem C75_cross2d : forall ce cl bw fh p s T Ds, cross2d_create ce cl bw fh (Some p) (Some s) = Made T Ds ->
  right_rates 2 (fun p => splines_of (cross2d_create ce cl bw fh (Some p) None)) p s T Ds.
Proof. exact C75_cross2d_holds. Qed.
Print Assumptions C75_cross2d.

Theorem C75_cross3d : forall ce cl bw fh p s T Ds, cross3d_create ce cl bw fh (Some p) (Some s) = Made T Ds ->
  right_rates 3 (fun p => splines_of (cross3d_create ce cl bw fh (Some p) None)) p s T Ds.
Proof. exact C75_cross3d_holds. Qed.
Print Assumptions C75_cross3d.

Theorem C75_cross3d_linear : forall ce cl bw fh p s T Ds, cross3dlin_create ce cl bw fh (Some p) (Some s) = Made T Ds ->
  right_rates 3 (fun p => splines_of (cross3dlin_create ce cl bw fh (Some p) None)) p s T Ds.
Proof. exact C75_cross3d_linear_holds. Qed.
Print Assumptions C75_cross3d_linear.

Theorem C75_double_lattice : forall m cl p s T Ds, double_lattice_create m cl (Some p) (Some s) = Made T Ds ->
  right_rates 2 (fun p => splines_of (double_lattice_create m cl (Some p) None)) p s T Ds.
Proof. exact C75_double_lattice_holds. Qed.
Print Assumptions C75_double_lattice.

Theorem C75_hollow_cube : forall p s T Ds, hollow_cube_create (Some p) (Some s) = Made T Ds ->
  right_rates 3 (fun p => splines_of (hollow_cube_create (Some p) None)) p s T Ds.
Proof. exact C75_hollow_cube_holds. Qed.
Print Assumptions C75_hollow_cube.

Theorem C75_cube_void_partial : forall m p s T Ds, length p = 1 -> sizes_only s -> cube_void_create m (Some p) (Some s) = Made T Ds ->
  right_rates 3 (fun p => splines_of (cube_void_create m (Some p) None)) p s T Ds.
Proof. exact C75_cube_void_partial_holds. Qed.
Print Assumptions C75_cube_void_partial.

Theorem C75_cube_void_refuted : forall m, cos m 0%Qc = 1%Qc -> sin m 0%Qc = 0%Qc ->
  exists T Ds, cube_void_create m (Some [[qc 1 2; qc 1 2; 0; 0]]%Qc) (Some [[[0]; [0]; [0]; [1]]]%Qc) = Made T Ds /\
  ~ right_rates 3 (fun p => splines_of (cube_void_create m (Some p) None)) [[qc 1 2; qc 1 2; 0; 0]]%Qc [[[0]; [0]; [0]; [1]]]%Qc T Ds.
Proof. exact C75_cube_void_refuted_holds. Qed.
Print Assumptions C75_cube_void_refuted.

Theorem C75_ellips_void_partial : forall m p s T Ds, length p = 1 -> sizes_only s -> ellips_create m (Some p) (Some s) = Made T Ds ->
  right_rates 3 (fun p => splines_of (ellips_create m (Some p) None)) p s T Ds.
Proof. exact C75_ellips_void_partial_holds. Qed.
Print Assumptions C75_ellips_void_partial.

Theorem C75_ellips_void_refuted : forall m, cos m 0%Qc = 1%Qc -> sin m 0%Qc = 0%Qc -> root3_bounds m ->
  exists T Ds, ellips_create m (Some [[qc 1 2; qc 1 2; 0; 0]]%Qc) (Some [[[0]; [0]; [0]; [1]]]%Qc) = Made T Ds /\
  ~ right_rates 3 (fun p => splines_of (ellips_create m (Some p) None)) [[qc 1 2; qc 1 2; 0; 0]]%Qc [[[0]; [0]; [0]; [1]]]%Qc T Ds.
Proof. exact C75_ellips_void_refuted_holds. Qed.
Print Assumptions C75_ellips_void_refuted.

Theorem C75_chi_refuted : forall m, (0 < pi m)%Qc -> cos m 0%Qc = 1%Qc -> sqrt m (qc 1 8) <> 0%Qc ->
  exists T Ds, chi_create m (Some [[0%Qc]]) (Some [[[0%Qc]]]) = Made T Ds /\
  ~ right_rates 2 (fun p => splines_of (chi_create m (Some p) None)) [[0%Qc]] [[[0%Qc]]] T Ds.
Proof. exact C75_chi_refuted_holds. Qed.
Print Assumptions C75_chi_refuted.

(** ** C76: patches are neither degenerate nor turned inside out *)
Theorem C76_cross2d : forall ce cl bw fh p s T D, cross2d_create ce cl bw fh (Some p) s = Made T D -> right_handed T.
Proof. exact C76_cross2d_holds. Qed.
Print Assumptions C76_cross2d.

Theorem C76_cross3d_partial : forall ce cl bw fh p s T D, cross3d_create ce cl bw fh (Some p) s = Made T D -> thinner ce p -> right_handed T.
Proof. exact C76_cross3d_partial_holds. Qed.
Print Assumptions C76_cross3d_partial.

Theorem C76_cross3d_refuted : exists T, cross3d_create 1%Qc None 0%Qc 0%Qc (Some (full 6 1 (qc 1 2))) None = Made T None /\ ~ right_handed T.
Proof. exact C76_cross3d_refuted_holds. Qed.
Print Assumptions C76_cross3d_refuted.

Theorem C76_cross3d_linear_partial : forall ce cl bw fh p s T D, cross3dlin_create ce cl bw fh (Some p) s = Made T D -> thinner ce p -> right_handed T.
Proof. exact C76_cross3d_linear_partial_holds. Qed.
Print Assumptions C76_cross3d_linear_partial.

Theorem C76_cross3d_linear_refuted : exists T, cross3dlin_create 1%Qc None 0%Qc 0%Qc (Some (full 6 1 (qc 1 2))) None = Made T None /\ ~ right_handed T.
Proof. exact C76_cross3d_linear_refuted_holds. Qed.
Print Assumptions C76_cross3d_linear_refuted.

Theorem C76_double_lattice : forall m cl p s T D, double_lattice_create m cl (Some p) s = Made T D -> (0 < sqrt m (qc 2 1))%Qc -> right_handed T.
Proof. exact C76_double_lattice_holds. Qed.
Print Assumptions C76_double_lattice.

Theorem C76_hollow_octagon : forall cl c p s T D, octagon_create cl c (Some p) s = Made T D -> right_handed T.
Proof. exact C76_hollow_octagon_holds. Qed.
Print Assumptions C76_hollow_octagon.

Theorem C76_hollow_octagon_extrude : forall cl p s T D, octagon3d_create cl (Some p) s = Made T D -> right_handed T.
Proof. exact C76_hollow_octagon_extrude_holds. Qed.
Print Assumptions C76_hollow_octagon_extrude.

Theorem C76_snappy_partial : forall cl a b c r n p s T D, snappy_create cl a b c r n p s = Made T D -> (0 < a -> 0 < b -> right_handed T)%Qc.
Proof. exact C76_snappy_partial_holds. Qed.
Print Assumptions C76_snappy_partial.

Theorem C76_snappy_refuted : exists T, snappy_create (qc 1 10) 0%Qc (qc 1 5) (qc 1 10) (qc 1 10) None None None = Made T None /\ ~ right_handed T.
Proof. exact C76_snappy_refuted_holds. Qed.
Print Assumptions C76_snappy_refuted.

Theorem C76_hollow_cube_refuted : exists T, hollow_cube_create None None = Made T None /\ ~ right_handed T.
Proof. exact C76_hollow_cube_refuted_holds. Qed.
Print Assumptions C76_hollow_cube_refuted.

Theorem C76_cube_void_partial : forall m a b s T D, cube_void_create m (Some [[a; b; 0; 0]]%Qc) s = Made T D -> cos m 0%Qc = 1%Qc -> sin m 0%Qc = 0%Qc ->
  (0 < a)%Qc -> (a < 1)%Qc -> (0 < b)%Qc -> (b < 1)%Qc -> right_handed T.
Proof. exact C76_cube_void_partial_holds. Qed.
Print Assumptions C76_cube_void_partial.

Theorem C76_cube_void_refuted : forall m, cos m 0%Qc = 1%Qc -> sin m 0%Qc = 0%Qc -> exists p T, cube_void_create m (Some p) None = Made T None /\ ~ right_handed T.
Proof. exact C76_cube_void_refuted_holds. Qed.
Print Assumptions C76_cube_void_refuted.

(** ** C77: closing tiles fill the side they close *)
Theorem C77_cross2d : forall ce cl bw fh p s T D a x, cross2d_create ce cl bw fh (Some p) s = Made T D -> a < 2 -> closes a cl x -> covers_side 2 a x T.
Proof. exact C77_cross2d_holds. Qed.
Print Assumptions C77_cross2d.

Theorem C77_hollow_octagon : forall cl c p s T D a x, octagon_create cl c (Some p) s = Made T D -> a < 2 -> closes a c x -> covers_side 2 a x T.
Proof. exact C77_hollow_octagon_holds. Qed.
Print Assumptions C77_hollow_octagon.

Theorem C77_cross3d_partial : forall ce cl bw fh p s T D a x, cross3d_create ce cl bw fh (Some p) s = Made T D -> a < 3 -> (bw <= qc 1 3)%Qc -> closes a cl x -> covers_side 3 a x T.
Proof. exact C77_cross3d_partial_holds. Qed.
Print Assumptions C77_cross3d_partial.

Theorem C77_cross3d_linear_partial : forall ce cl bw fh p s T D a x, cross3dlin_create ce cl bw fh (Some p) s = Made T D -> a < 3 -> (bw <= qc 1 3)%Qc -> closes a cl x -> covers_side 3 a x T.
Proof. exact C77_cross3d_linear_partial_holds. Qed.
Print Assumptions C77_cross3d_linear_partial.

Theorem C77_cross3d_refuted : forall ce cl bw fh p s T D x, cross3d_create ce cl bw fh (Some p) s = Made T D -> (qc 1 3 < bw)%Qc -> closes 2 cl x -> ~ covers_side 3 2 x T.
Proof. exact C77_cross3d_refuted_holds. Qed.
Print Assumptions C77_cross3d_refuted.

Theorem C77_cross3d_linear_refuted : forall ce cl bw fh p s T D x, cross3dlin_create ce cl bw fh (Some p) s = Made T D -> (qc 1 3 < bw)%Qc -> closes 2 cl x -> ~ covers_side 3 2 x T.
Proof. exact C77_cross3d_linear_refuted_holds. Qed.
Print Assumptions C77_cross3d_linear_refuted.

(** ** Examples: the tiles exist *)
Example some_libm_bounded : bounded_trig some_libm.
Proof. exact some_libm_bounded_holds. Qed.

Example some_libm_roots : root3_bounds some_libm /\ (0 < sqrt some_libm (qc 2 1))%Qc /\ (0 <= sqrt some_libm (qc 1 8) /\ sqrt some_libm (qc 1 8) <= qc 1 2)%Qc /\
  (0 < pi some_libm)%Qc /\ cos some_libm 0%Qc = 1%Qc /\ sin some_libm 0%Qc = 0%Qc /\ sqrt some_libm (qc 1 8) <> 0%Qc.
Proof. exact some_libm_roots_holds. Qed.

Example tiles_cross2d_made :
  map (fun cl => made_one (cross2d_create 1%Qc cl (qc 1 10) (qc 1 10) (Some [[qc 1 5]; [qc 1 4]; [qc 1 8]; [qc 1 6]]) (Some [[[1; 0]]; [[0; 1]]; [[0; 0]]; [[1; 1]]]%Qc)))
    [None; Some "x_min"; Some "x_max"; Some "y_min"; Some "y_max"]%string = repeat true 5.
Proof. exact tiles_cross2d_made_holds. Qed.

Example tiles_cross3d_made :
  flat_map (fun cl => [made_one (cross3d_create 1%Qc cl (qc 1 10) (qc 1 10) (Some six) (Some six_s)); made_one (cross3dlin_create 1%Qc cl (qc 1 10) (qc 1 10) (Some six) (Some six_s))])
    [None; Some "z_min"; Some "z_max"]%string = repeat true 6.
Proof. exact tiles_cross3d_made_holds. Qed.

Example tiles_cross3d_thinner : thinner 1%Qc six.
Proof. exact tiles_cross3d_thinner_holds. Qed.

Example tiles_cross3d_gap_made : made_one (cross3d_create 1%Qc (Some "z_min"%string) (qc 2 5) (qc 1 10) (Some six) None) = true /\
  made_one (cross3dlin_create 1%Qc (Some "z_max"%string) (qc 2 5) (qc 1 10) (Some six) None) = true.
Proof. exact tiles_cross3d_gap_made_holds. Qed.

Example tiles_double_lattice_made : made_one (double_lattice_create some_libm (qc 1 2) (Some [[qc 1 10; qc 1 12]]) (Some [[[1; 0]; [0; 1]]]%Qc)) = true.
Proof. exact tiles_double_lattice_made_holds. Qed.

Example tiles_hollow_octagon_made :
  map (fun c => made_one (octagon_create (qc 1 2) c (Some [[qc 1 5]]) None)) [None; Some "x_min"; Some "x_max"; Some "y_min"; Some "y_max"]%string = repeat true 5 /\
  made_one (octagon3d_create (qc 1 2) (Some [[qc 1 5]]) None) = true.
Proof. exact tiles_hollow_octagon_made_holds. Qed.

Example tiles_snappy_made : made_one (snappy_create (qc 1 10) (qc 1 10) (qc 1 5) (qc 1 10) (qc 3 20) None None None) = true.
Proof. exact tiles_snappy_made_holds. Qed.

Example tiles_chi_made : made_one (chi_create some_libm (Some [[qc 1 5]]) (Some [[[1%Qc]]])) = true.
Proof. exact tiles_chi_made_holds. Qed.

Example tiles_hollow_cube_made : made_one (hollow_cube_create (Some (six ++ [[qc 1 3]])) (Some (six_s ++ [[[1; 0]]])%Qc)) = true.
Proof. exact tiles_hollow_cube_made_holds. Qed.

(** A void that is not turned. *)
Example tiles_void_unturned_made : made_one (cube_void_create some_libm (Some [[qc 1 2; qc 1 4; 0; 0]]%Qc) None) = true.
Proof. reflexivity. Qed.

Example tiles_void_made : made_one (cube_void_create some_libm (Some small_void) (Some [[[1]; [1]; [0]; [0]]]%Qc)) = true /\
  made_one (ellips_create some_libm (Some small_void) (Some [[[1]; [1]; [0]; [0]]]%Qc)) = true /\
  void_fits 1%Qc small_void /\ void_fits (qc 1 2) small_void /\ sizes_only [[[1]; [1]; [0]; [0]]]%Qc.
Proof. exact tiles_void_made_holds. Qed.

Example tiles_sides_closed : open_above 0 (Some "x_min"%string) /\ open_below 0 (Some "x_max"%string) /\ beside 2 1 (Some "x_min"%string) /\ closes 0 (Some "x_max"%string) 1%Qc /\ closes 2 (Some "z_min"%string) 0%Qc.
Proof. exact tiles_sides_closed_holds. Qed.