(** Witnesses and assembly of the theorems of T_Tiles. *)
From Coq Require Import String List Arith Lia ZArith QArith Qcanon Bool.
From Verif Require Import Base BaseQc S_Grid M_Grid S_Spline S_Value S_Deriv M_Core S_Integrate M_Tiles M_Tile2D M_Tile3D M_TileMake S_Tiles S_TileLimits P_Tile2D P_TileLattice P_TileSnappy P_TileOctagon P_TileCross3 P_TileWall P_Tile3D P_TileVoid P_TileNot P_TileTurned P_TileTouch P_Tiles.
Import ListNotations.
Local Open Scope list_scope.
Local Open Scope nat_scope.

Lemma bounded_turning m : bounded_trig m -> turning m.
Proof. intros H. split; intros x; destruct (H x) as (? & ? & ? & ?); auto. Qed.

Lemma void_fits_in k p : void_fits k p -> fits_in k p.
Proof. intros (rx & ryz & a & b & E & H). unfold fits_in. rewrite E. exact H. Qed.

Lemma C73_cross2d_holds : forall ce ce' cl cl' bw bw' fh fh' p p' s s' T T' D D' a,
  cross2d_create ce cl bw fh (Some p) s = Made T D -> cross2d_create ce' cl' bw' fh' (Some p') s' = Made T' D' -> a < 2 ->
  (open_above a cl /\ open_below a cl' /\ at2 p (2 * a + 1) 0 = at2 p' (2 * a) 0) \/
  (beside 2 a cl /\ cl' = cl /\ bw' = bw /\ fh' = fh) -> glued 2 a T T' /\ touches a 1%Qc T.
Proof. intros until a. intros H H' Ha C. split; [eapply cross2d_glued; eauto|eapply cross2d_touches; eauto; tauto]. Qed.

Lemma C73_cross3d_holds : forall ce ce' cl cl' bw bw' fh fh' p p' s s' T T' D D' a,
  cross3d_create ce cl bw fh (Some p) s = Made T D -> cross3d_create ce' cl' bw' fh' (Some p') s' = Made T' D' ->
  thinner ce p -> thinner ce' p' -> a < 3 ->
  (open_above a cl /\ open_below a cl' /\ at2 p (2 * a + 1) 0 = at2 p' (2 * a) 0) \/
  (beside 3 a cl /\ cl' = cl /\ bw' = bw /\ fh' = fh) -> glued 3 a T T' /\ touches a 1%Qc T.
Proof. intros until a. intros H H' S S' Ha C. split; [eapply (cross3_glued true); eauto|eapply (cross3_touches true); eauto; tauto]. Qed.

Lemma C73_cross3d_linear_holds : forall ce ce' cl cl' bw bw' fh fh' p p' s s' T T' D D' a,
  cross3dlin_create ce cl bw fh (Some p) s = Made T D -> cross3dlin_create ce' cl' bw' fh' (Some p') s' = Made T' D' ->
  thinner ce p -> thinner ce' p' -> a < 3 ->
  (open_above a cl /\ open_below a cl' /\ at2 p (2 * a + 1) 0 = at2 p' (2 * a) 0) \/
  (beside 3 a cl /\ cl' = cl /\ bw' = bw /\ fh' = fh) -> glued 3 a T T' /\ touches a 1%Qc T.
Proof. intros until a. intros H H' S S' Ha C. split; [eapply (cross3_glued false); eauto|eapply (cross3_touches false); eauto; tauto]. Qed.

Lemma C73_double_lattice_holds : forall m m' cl p p' s s' T T' D D' a, (0 < sqrt m (qc 2 1))%Qc -> (0 < sqrt m' (qc 2 1))%Qc ->
  double_lattice_create m cl (Some p) s = Made T D -> double_lattice_create m' cl (Some p') s' = Made T' D' -> a < 2 -> glued 2 a T T' /\ touches a 1%Qc T.
Proof. intros until a. intros Q Q' H H' Ha. split; [eapply (lattice_glued m m'); eauto|eapply lattice_touches; eauto]. Qed.

Lemma C73_hollow_octagon_holds : forall cl c c' p p' s s' T T' D D' a,
  octagon_create cl c (Some p) s = Made T D -> octagon_create cl c' (Some p') s' = Made T' D' -> a < 2 ->
  (open_above a c /\ open_below a c') \/ (beside 2 a c /\ c' = c) -> glued 2 a T T' /\ touches a 1%Qc T.
Proof. intros until a. intros H H' Ha C. split; [eapply octagon_glued; eauto|eapply octagon_touches; eauto; tauto]. Qed.

Lemma C73_hollow_octagon_extrude_holds : forall cl p p' s s' T T' D D' a,
  octagon3d_create cl (Some p) s = Made T D -> octagon3d_create cl (Some p') s' = Made T' D' -> a < 3 ->
  (a = 2 -> p' = p) -> glued 3 a T T' /\ touches a 1%Qc T.
Proof. intros until a. intros H H' Ha C. split; [eapply octagon3d_glued; eauto|eapply octagon3d_touches; eauto]. Qed.

Lemma C73_snappy_above_holds : forall cl a b c r a' b' c' r' n p s T D n' p' s' T' D',
  snappy_create cl a b c r n p s = Made T D -> snappy_create cl a' b' c' r' n' p' s' = Made T' D' ->
  (0 < a -> 0 < b -> b < qc 1 2 -> 0 < a' -> 0 < b' -> b' < qc 1 2 -> glued 2 1 T T' /\ touches 1 1%Qc T)%Qc.
Proof. intros until D'. intros H H' ? ? ? ? ? ?. split; [eapply (snappy_glued_y cl a b c r a' b'); eauto|eapply snappy_touches; eauto]. Qed.

Lemma C73_snappy_right_holds : forall cl cl' a b c r c' r' n p s T D n' p' s' T' D',
  snappy_create cl a b c r n p s = Made T D -> snappy_create cl' a b c' r' n' p' s' = Made T' D' ->
  (0 < a -> 0 < b -> b < qc 1 2 -> glued 2 0 T T' /\ touches 0 1%Qc T)%Qc.
Proof. intros until D'. intros H H' ? ? ?. split; [eapply (snappy_glued_x cl cl' a b); eauto|eapply snappy_touches; eauto]. Qed.

Lemma C73_chi_holds : forall m m' p s p' s' T T' D D' a,
  chi_create m (Some p) s = Made T D -> chi_create m' (Some p') s' = Made T' D' -> a < 2 -> glued 2 a T T' /\ touches a 1%Qc T.
Proof. intros until a. intros H H' Ha. split; [eapply (chi_glued m m'); eauto|eapply chi_touches; eauto]. Qed.

Lemma C73_hollow_cube_holds : forall p p' s s' T T' D D' a,
  hollow_cube_create (Some p) s = Made T D -> hollow_cube_create (Some p') s' = Made T' D' -> a < 3 ->
  at2 p (2 * a + 1) 0 = at2 p' (2 * a) 0 -> glued 3 a T T' /\ touches a 1%Qc T.
Proof. intros until a. intros H H' Ha C. split; [eapply hollow_glued; eauto|eapply hollow_touches; eauto]. Qed.

Lemma C73_cube_void_holds : forall m m' p p' s s' T T' D D' a,
  cube_void_create m (Some p) s = Made T D -> cube_void_create m' (Some p') s' = Made T' D' ->
  bounded_trig m -> bounded_trig m' -> void_fits (qc 1 2) p -> void_fits (qc 1 2) p' -> a < 3 -> glued 3 a T T' /\ touches a 1%Qc T.
Proof. intros until a. intros H H' B B' F F' Ha. split; [exact (cube_void_glued m m' p p' s s' T T' D D' a H H' (bounded_turning _ B) (bounded_turning _ B') (void_fits_in _ _ F) (void_fits_in _ _ F') Ha)|exact (cube_void_touches m p s T D a H Ha)]. Qed.

Lemma C73_ellips_void_holds : forall m m' p p' s s' T T' D D' a,
  ellips_create m (Some p) s = Made T D -> ellips_create m' (Some p') s' = Made T' D' ->
  bounded_trig m -> bounded_trig m' -> root3_bounds m -> root3_bounds m' -> void_fits 1%Qc p -> void_fits 1%Qc p' -> a < 3 -> glued 3 a T T' /\ touches a 1%Qc T.
Proof. intros until a. intros H H' B B' R R' F F' Ha. split; [exact (ball_glued m m' p p' s s' T T' D D' a H H' (bounded_turning _ B) (bounded_turning _ B') R R' (void_fits_in _ _ F) (void_fits_in _ _ F') Ha)|exact (ball_touches m p s T D a H Ha)]. Qed.

Lemma C74_cross2d_holds : forall ce cl bw fh p s T D, cross2d_create ce cl bw fh (Some p) s = Made T D -> inside_cell 2 T.
Proof. exact cross2d_inside. Qed.

Lemma C74_cross3d_holds : forall ce cl bw fh p s T D, cross3d_create ce cl bw fh (Some p) s = Made T D -> inside_cell 3 T.
Proof. exact (cross3_inside true). Qed.

Lemma C74_cross3d_linear_holds : forall ce cl bw fh p s T D, cross3dlin_create ce cl bw fh (Some p) s = Made T D -> inside_cell 3 T.
Proof. exact (cross3_inside false). Qed.

Lemma C74_double_lattice_holds : forall m cl p s T D, double_lattice_create m cl (Some p) s = Made T D -> (0 < sqrt m (qc 2 1))%Qc -> inside_cell 2 T.
Proof. exact lattice_inside. Qed.

Lemma C74_hollow_octagon_holds : forall cl c p s T D, octagon_create cl c (Some p) s = Made T D -> inside_cell 2 T.
Proof. exact octagon_inside. Qed.

Lemma C74_hollow_octagon_extrude_holds : forall cl p s T D, octagon3d_create cl (Some p) s = Made T D -> inside_cell 3 T.
Proof. exact octagon3d_inside. Qed.

Lemma C74_snappy_partial_holds : forall cl a b c r n p s T D, snappy_create cl a b c r n p s = Made T D -> (b <= qc 1 2)%Qc -> inside_cell 2 T.
Proof. exact snappy_inside. Qed.

Lemma C74_snappy_refuted_holds : exists T, snappy_create (qc 1 10) 0%Qc (qc 3 5) (qc 1 10) (qc 1 10) None None None = Made T None /\ ~ inside_cell 2 T.
Proof. exact snappy_outside. Qed.

Lemma C74_chi_holds : forall m p s T D, bounded_trig m -> (0 <= sqrt m (qc 1 8) /\ sqrt m (qc 1 8) <= qc 1 2)%Qc ->
  chi_create m (Some p) s = Made T D -> inside_cell 2 T.
Proof. intros m p s T D B R H. apply (chi_inside m p s T D); auto. split; auto; intros x; destruct (B x) as (? & ? & ? & ?); auto. Qed.

Lemma C74_hollow_cube_holds : forall p s T D, hollow_cube_create (Some p) s = Made T D -> inside_cell 3 T.
Proof. exact hollow_inside. Qed.

Lemma C74_cube_void_partial_holds : forall m p s T D, cube_void_create m (Some p) s = Made T D -> bounded_trig m -> void_fits (qc 1 2) p -> inside_cell 3 T.
Proof. intros m p s T D H B F. exact (cube_void_inside m p s T D H (bounded_turning _ B) (void_fits_in _ _ F)). Qed.

Lemma C74_cube_void_refuted_holds : forall m, cos m 0%Qc = 1%Qc -> sin m 0%Qc = 0%Qc ->
  exists p T, cube_void_create m (Some p) None = Made T None /\ ~ inside_cell 3 T.
Proof. exact cube_void_outside. Qed.

Lemma C74_ellips_void_partial_holds : forall m p s T D, ellips_create m (Some p) s = Made T D -> bounded_trig m -> root3_bounds m -> void_fits 1%Qc p -> inside_cell 3 T.
Proof. intros m p s T D H B R F. exact (ball_inside m p s T D H (bounded_turning _ B) R (void_fits_in _ _ F)). Qed.

Lemma C74_ellips_void_refuted_holds : forall m, cos m 0%Qc = 1%Qc -> sin m 0%Qc = 0%Qc -> root3_bounds m ->
  exists p T, ellips_create m (Some p) None = Made T None /\ ~ inside_cell 3 T.
Proof. exact ball_outside. Qed.

Lemma C75_cross2d_holds : forall ce cl bw fh p s T Ds, cross2d_create ce cl bw fh (Some p) (Some s) = Made T Ds ->
  right_rates 2 (fun p => splines_of (cross2d_create ce cl bw fh (Some p) None)) p s T Ds.
Proof. exact cross2d_changes. Qed.

Lemma C75_cross3d_holds : forall ce cl bw fh p s T Ds, cross3d_create ce cl bw fh (Some p) (Some s) = Made T Ds ->
  right_rates 3 (fun p => splines_of (cross3d_create ce cl bw fh (Some p) None)) p s T Ds.
Proof. exact (cross3_changes true). Qed.

Lemma C75_cross3d_linear_holds : forall ce cl bw fh p s T Ds, cross3dlin_create ce cl bw fh (Some p) (Some s) = Made T Ds ->
  right_rates 3 (fun p => splines_of (cross3dlin_create ce cl bw fh (Some p) None)) p s T Ds.
Proof. exact (cross3_changes false). Qed.

Lemma C75_double_lattice_holds : forall m cl p s T Ds, double_lattice_create m cl (Some p) (Some s) = Made T Ds ->
  right_rates 2 (fun p => splines_of (double_lattice_create m cl (Some p) None)) p s T Ds.
Proof. exact lattice_changes. Qed.

Lemma C75_hollow_cube_holds : forall p s T Ds, hollow_cube_create (Some p) (Some s) = Made T Ds ->
  right_rates 3 (fun p => splines_of (hollow_cube_create (Some p) None)) p s T Ds.
Proof. exact hollow_changes. Qed.

Lemma C75_cube_void_partial_holds : forall m p s T Ds, length p = 1 -> sizes_only s -> cube_void_create m (Some p) (Some s) = Made T Ds ->
  right_rates 3 (fun p => splines_of (cube_void_create m (Some p) None)) p s T Ds.
Proof. exact cube_void_changes. Qed.

Lemma C75_cube_void_refuted_holds : forall m, cos m 0%Qc = 1%Qc -> sin m 0%Qc = 0%Qc ->
  exists T Ds, cube_void_create m (Some [[qc 1 2; qc 1 2; 0; 0]]%Qc) (Some [[[0]; [0]; [0]; [1]]]%Qc) = Made T Ds /\
  ~ right_rates 3 (fun p => splines_of (cube_void_create m (Some p) None)) [[qc 1 2; qc 1 2; 0; 0]]%Qc [[[0]; [0]; [0]; [1]]]%Qc T Ds.
Proof. exact cube_void_rates_wrong. Qed.

Lemma C75_ellips_void_partial_holds : forall m p s T Ds, length p = 1 -> sizes_only s -> ellips_create m (Some p) (Some s) = Made T Ds ->
  right_rates 3 (fun p => splines_of (ellips_create m (Some p) None)) p s T Ds.
Proof. exact ball_changes. Qed.

Lemma C75_ellips_void_refuted_holds : forall m, cos m 0%Qc = 1%Qc -> sin m 0%Qc = 0%Qc -> root3_bounds m ->
  exists T Ds, ellips_create m (Some [[qc 1 2; qc 1 2; 0; 0]]%Qc) (Some [[[0]; [0]; [0]; [1]]]%Qc) = Made T Ds /\
  ~ right_rates 3 (fun p => splines_of (ellips_create m (Some p) None)) [[qc 1 2; qc 1 2; 0; 0]]%Qc [[[0]; [0]; [0]; [1]]]%Qc T Ds.
Proof. exact ball_rates_wrong. Qed.

Lemma C75_chi_refuted_holds : forall m, (0 < pi m)%Qc -> cos m 0%Qc = 1%Qc -> sqrt m (qc 1 8) <> 0%Qc ->
  exists T Ds, chi_create m (Some [[0%Qc]]) (Some [[[0%Qc]]]) = Made T Ds /\
  ~ right_rates 2 (fun p => splines_of (chi_create m (Some p) None)) [[0%Qc]] [[[0%Qc]]] T Ds.
Proof. exact chi_rates_wrong. Qed.

Lemma C76_cross2d_holds : forall ce cl bw fh p s T D, cross2d_create ce cl bw fh (Some p) s = Made T D -> right_handed T.
Proof. exact cross2d_right. Qed.

Lemma C76_cross3d_partial_holds : forall ce cl bw fh p s T D, cross3d_create ce cl bw fh (Some p) s = Made T D -> thinner ce p -> right_handed T.
Proof. exact (cross3_right true). Qed.

Lemma C76_cross3d_refuted_holds : exists T, cross3d_create 1%Qc None 0%Qc 0%Qc (Some (full 6 1 (qc 1 2))) None = Made T None /\ ~ right_handed T.
Proof. exact (cross3_flat true). Qed.

Lemma C76_cross3d_linear_partial_holds : forall ce cl bw fh p s T D, cross3dlin_create ce cl bw fh (Some p) s = Made T D -> thinner ce p -> right_handed T.
Proof. exact (cross3_right false). Qed.

Lemma C76_cross3d_linear_refuted_holds : exists T, cross3dlin_create 1%Qc None 0%Qc 0%Qc (Some (full 6 1 (qc 1 2))) None = Made T None /\ ~ right_handed T.
Proof. exact (cross3_flat false). Qed.

Lemma C76_double_lattice_holds : forall m cl p s T D, double_lattice_create m cl (Some p) s = Made T D -> (0 < sqrt m (qc 2 1))%Qc -> right_handed T.
Proof. exact lattice_right. Qed.

Lemma C76_hollow_octagon_holds : forall cl c p s T D, octagon_create cl c (Some p) s = Made T D -> right_handed T.
Proof. exact octagon_right. Qed.

Lemma C76_hollow_octagon_extrude_holds : forall cl p s T D, octagon3d_create cl (Some p) s = Made T D -> right_handed T.
Proof. exact octagon3d_right. Qed.

Lemma C76_snappy_partial_holds : forall cl a b c r n p s T D, snappy_create cl a b c r n p s = Made T D -> (0 < a -> 0 < b -> right_handed T)%Qc.
Proof. exact snappy_right. Qed.

Lemma C76_snappy_refuted_holds : exists T, snappy_create (qc 1 10) 0%Qc (qc 1 5) (qc 1 10) (qc 1 10) None None None = Made T None /\ ~ right_handed T.
Proof. exact snappy_flat. Qed.

Lemma C76_hollow_cube_refuted_holds : exists T, hollow_cube_create None None = Made T None /\ ~ right_handed T.
Proof. exact hollow_cube_turned. Qed.

Lemma C76_cube_void_partial_holds : forall m a b s T D, cube_void_create m (Some [[a; b; 0; 0]]%Qc) s = Made T D -> cos m 0%Qc = 1%Qc -> sin m 0%Qc = 0%Qc ->
  (0 < a)%Qc -> (a < 1)%Qc -> (0 < b)%Qc -> (b < 1)%Qc -> right_handed T.
Proof. intros m a b s T D H C S A0 A1 B0 B1. apply (cube_void_right m [[a; b; 0; 0]]%Qc s T D a b); auto. now repeat split. Qed.

Lemma C76_cube_void_refuted_holds : forall m, cos m 0%Qc = 1%Qc -> sin m 0%Qc = 0%Qc -> exists p T, cube_void_create m (Some p) None = Made T None /\ ~ right_handed T.
Proof. exact cube_void_turned. Qed.

Lemma C77_cross2d_holds : forall ce cl bw fh p s T D a x, cross2d_create ce cl bw fh (Some p) s = Made T D -> a < 2 -> closes a cl x -> covers_side 2 a x T.
Proof. exact cross2d_covers. Qed.

Lemma C77_hollow_octagon_holds : forall cl c p s T D a x, octagon_create cl c (Some p) s = Made T D -> a < 2 -> closes a c x -> covers_side 2 a x T.
Proof. exact octagon_covers. Qed.

Lemma C77_cross3d_partial_holds : forall ce cl bw fh p s T D a x, cross3d_create ce cl bw fh (Some p) s = Made T D -> a < 3 -> (bw <= qc 1 3)%Qc -> closes a cl x -> covers_side 3 a x T.
Proof. exact (cross3_covers true). Qed.

Lemma C77_cross3d_linear_partial_holds : forall ce cl bw fh p s T D a x, cross3dlin_create ce cl bw fh (Some p) s = Made T D -> a < 3 -> (bw <= qc 1 3)%Qc -> closes a cl x -> covers_side 3 a x T.
Proof. exact (cross3_covers false). Qed.

Lemma C77_cross3d_refuted_holds : forall ce cl bw fh p s T D x, cross3d_create ce cl bw fh (Some p) s = Made T D -> (qc 1 3 < bw)%Qc -> closes 2 cl x -> ~ covers_side 3 2 x T.
Proof. exact (cross3_gap true). Qed.

Lemma C77_cross3d_linear_refuted_holds : forall ce cl bw fh p s T D x, cross3dlin_create ce cl bw fh (Some p) s = Made T D -> (qc 1 3 < bw)%Qc -> closes 2 cl x -> ~ covers_side 3 2 x T.
Proof. exact (cross3_gap false). Qed.

Definition made_one (r : made) : bool := match r with Made _ _ => true | _ => false end.

(** Numbers in place of numpy's functions, right at the arguments used here. *)
Definition some_libm : libm := Libm (qc 22 7) (fun x => if qeqb x 0 then 0 else qc 1 2)%Qc (fun x => if qeqb x 0 then 1 else qc 4 5)%Qc
  (fun x => if qeqb x (qc 1 8) then qc 6 17 else if qeqb x (qc 2 1) then qc 7 5 else qc 26 15).

Lemma some_libm_bounded_holds : bounded_trig some_libm.
Proof. intros x. cbn [sin cos some_libm]. destruct (qeqb x 0); repeat split; vm_compute; discriminate. Qed.

Lemma some_libm_roots_holds : root3_bounds some_libm /\ (0 < sqrt some_libm (qc 2 1))%Qc /\ (0 <= sqrt some_libm (qc 1 8) /\ sqrt some_libm (qc 1 8) <= qc 1 2)%Qc /\
  (0 < pi some_libm)%Qc /\ cos some_libm 0%Qc = 1%Qc /\ sin some_libm 0%Qc = 0%Qc /\ sqrt some_libm (qc 1 8) <> 0%Qc.
Proof.
  repeat split; try (vm_compute; discriminate); try (vm_compute; reflexivity).
Qed.

Lemma tiles_cross2d_made_holds :
  map (fun cl => made_one (cross2d_create 1%Qc cl (qc 1 10) (qc 1 10) (Some [[qc 1 5]; [qc 1 4]; [qc 1 8]; [qc 1 6]]) (Some [[[1; 0]]; [[0; 1]]; [[0; 0]]; [[1; 1]]]%Qc)))
    [None; Some "x_min"; Some "x_max"; Some "y_min"; Some "y_max"]%string = repeat true 5.
Proof. vm_compute. reflexivity. Qed.

Definition six : array2 := [[qc 1 5]; [qc 1 4]; [qc 1 8]; [qc 1 6]; [qc 1 7]; [qc 1 9]].

Definition six_s : array3 := [[[1; 0]]; [[0; 1]]; [[0; 0]]; [[1; 1]]; [[0; 0]]; [[0; 1]]]%Qc.

Lemma tiles_cross3d_made_holds :
  flat_map (fun cl => [made_one (cross3d_create 1%Qc cl (qc 1 10) (qc 1 10) (Some six) (Some six_s)); made_one (cross3dlin_create 1%Qc cl (qc 1 10) (qc 1 10) (Some six) (Some six_s))])
    [None; Some "z_min"; Some "z_max"]%string = repeat true 6.
Proof. vm_compute. reflexivity. Qed.

Lemma tiles_cross3d_thinner_holds : thinner 1%Qc six.
Proof. intros x Hx. cbn [six concat app In] in Hx. repeat (destruct Hx as [<-|Hx]; [split; vm_compute; reflexivity|]). destruct Hx. Qed.

Lemma tiles_cross3d_gap_made_holds : made_one (cross3d_create 1%Qc (Some "z_min"%string) (qc 2 5) (qc 1 10) (Some six) None) = true /\
  made_one (cross3dlin_create 1%Qc (Some "z_max"%string) (qc 2 5) (qc 1 10) (Some six) None) = true.
Proof. vm_compute. auto. Qed.

Lemma tiles_double_lattice_made_holds : made_one (double_lattice_create some_libm (qc 1 2) (Some [[qc 1 10; qc 1 12]]) (Some [[[1; 0]; [0; 1]]]%Qc)) = true.
Proof. vm_compute. reflexivity. Qed.

Lemma tiles_hollow_octagon_made_holds :
  map (fun c => made_one (octagon_create (qc 1 2) c (Some [[qc 1 5]]) None)) [None; Some "x_min"; Some "x_max"; Some "y_min"; Some "y_max"]%string = repeat true 5 /\
  made_one (octagon3d_create (qc 1 2) (Some [[qc 1 5]]) None) = true.
Proof. vm_compute. auto. Qed.

Lemma tiles_snappy_made_holds : made_one (snappy_create (qc 1 10) (qc 1 10) (qc 1 5) (qc 1 10) (qc 3 20) None None None) = true.
Proof. vm_compute. reflexivity. Qed.

Lemma tiles_chi_made_holds : made_one (chi_create some_libm (Some [[qc 1 5]]) (Some [[[1%Qc]]])) = true.
Proof. vm_compute. reflexivity. Qed.

Lemma tiles_hollow_cube_made_holds : made_one (hollow_cube_create (Some (six ++ [[qc 1 3]])) (Some (six_s ++ [[[1; 0]]])%Qc)) = true.
Proof. vm_compute. reflexivity. Qed.

Definition small_void : array2 := [[qc 1 5; qc 1 10; qc 1 3; qc 1 4]].

Lemma tiles_void_made_holds : made_one (cube_void_create some_libm (Some small_void) (Some [[[1]; [1]; [0]; [0]]]%Qc)) = true /\
  made_one (ellips_create some_libm (Some small_void) (Some [[[1]; [1]; [0]; [0]]]%Qc)) = true /\
  void_fits 1%Qc small_void /\ void_fits (qc 1 2) small_void /\ sizes_only [[[1]; [1]; [0]; [0]]]%Qc.
Proof.
  split; [vm_compute; reflexivity|]. split; [vm_compute; reflexivity|].
  split; [do 4 eexists; split; [reflexivity|repeat split; vm_compute; (discriminate || reflexivity)]|].
  split; [do 4 eexists; split; [reflexivity|repeat split; vm_compute; (discriminate || reflexivity)]|].
  intros [|i] Hi; [split; reflexivity|cbn in Hi; lia].
Qed.

Lemma tiles_sides_closed_holds : open_above 0 (Some "x_min"%string) /\ open_below 0 (Some "x_max"%string) /\ beside 2 1 (Some "x_min"%string) /\ closes 0 (Some "x_max"%string) 1%Qc /\ closes 2 (Some "z_min"%string) 0%Qc.
Proof. repeat split; [right; reflexivity|right; reflexivity|exists 0; repeat split; auto|right; auto|left; auto]. Qed.

