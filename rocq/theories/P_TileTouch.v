(** Tiles reach the sides of their cell. *)
From Coq Require Import String List Arith Lia ZArith QArith Qcanon Bool.
From Verif Require Import Base BaseQc S_Grid M_Grid S_Spline S_Value S_Deriv M_Core S_Integrate
  M_Tiles M_Tile2D M_Tile3D M_TileMake S_Tiles P_Tiles P_Tile2D P_TileLattice P_TileSnappy P_TileOctagon P_TileCross3 P_Tile3D P_TileVoid.
Import ListNotations.
Local Open Scope list_scope.
Local Open Scope nat_scope.

Lemma touches_at a x T i k up : Forall is_bez T -> i < length T -> k < para_dim (nth i T none) -> all_at a x (fcps (nth i T none) k up) -> touches a x T.
Proof.
  intros B Hi Hk H. exists (nth i T none), k, up. split; [now apply nth_In|]. split; auto. apply on_plane_all; auto.
  rewrite Forall_forall in B. apply B. now apply nth_In.
Qed.
(** [A]: a tile of the same kind with numbers. *)
Ltac touch A := match goal with |- touches ?a ?x _ =>
  let f := eval vm_compute in (hd (0, 0, true) (facets_at a x A)) in
  match f with (?i, ?k, ?up) => apply (touches_at a x _ i k up); [all_bez|cbn; lia|cbn; lia|reduce_tables; conjuncts; first [reflexivity | ring | qq]] end end.
Lemma cross2d_touches ce cl bw fh p s T D a : cross2d_create ce cl bw fh (Some p) s = Made T D -> a < 2 -> open_above a cl \/ beside 2 a cl -> touches a 1%Qc T.
Proof.
  intros H Ha C. apply cross2d_kinds in H. destruct H as (x0 & x1 & y0 & y1 & -> & _ & _ & _ & _ & K).
  assert (E : a = 0 \/ a = 1) by lia. inversion K; subst; clear K;
  (destruct C as [[C|C]|(b & Hb & Hn & [C|C])]; try discriminate C; destruct E as [-> | ->]; try discriminate C;
   try (assert (b = 0 \/ b = 1) as [-> | ->] by lia; try discriminate C; try lia)).
  all: first [touch (cross (qc 1 5) (qc 1 5) (qc 1 5) (qc 1 5) (qc 1 5)) | touch (closed_sample cross2d_x_min) | touch (closed_sample cross2d_x_max)
    | touch (closed_sample cross2d_y_min) | touch (closed_sample cross2d_y_max)].
Qed.
Lemma lattice_touches m cl p s T D a : double_lattice_create m cl (Some p) s = Made T D -> (0 < sqrt m (qc 2 1))%Qc -> a < 2 -> touches a 1%Qc T.
Proof.
  intros H Hq Ha. apply lattice_kind in H; auto. destruct H as (C & t & e & R & ->). 
  assert (a = 0 \/ a = 1) as [-> | ->] by lia; touch lattice_sample.
Qed.
Lemma octagon_touches cl c p s T D a : octagon_create cl c (Some p) s = Made T D -> a < 2 -> open_above a c \/ beside 2 a c -> touches a 1%Qc T.
Proof.
  intros H Ha C. open_octagon H f h o i K E R. clear E R.
  assert (E : a = 0 \/ a = 1) by lia. inversion K; subst; clear K;
  (destruct C as [[C|C]|(b & Hb & Hn & [C|C])]; try discriminate C; destruct E as [-> | ->]; try discriminate C;
   try (assert (b = 0 \/ b = 1) as [-> | ->] by lia; try discriminate C; try lia)).
  all: first [touch (octagon_sample octagon_splines) | touch (octagon_sample octagon_x_min) | touch (octagon_sample octagon_x_max)
    | touch (octagon_sample octagon_y_min) | touch (octagon_sample octagon_y_max)].
Qed.
Lemma snappy_touches cl a b c r n p s T D k : snappy_create cl a b c r n p s = Made T D -> k < 2 -> touches k 1%Qc T.
Proof.
  intros H Hk. apply snappy_kind in H. destruct H as (k' & E & R & ->). assert (k = 0 \/ k = 1) as [-> | ->] by lia; touch snap_sample.
Qed.
Lemma chi_touches m p s T D a : chi_create m (Some p) s = Made T D -> a < 2 -> touches a 1%Qc T.
Proof.
  intros H Ha. apply chi_inv in H. destruct H as (x & y & ? & -> & _). assert (a = 0 \/ a = 1) as [-> | ->] by lia; touch chi_sample.
Qed.
Lemma hollow_touches p s T D a : hollow_cube_create (Some p) s = Made T D -> a < 3 -> touches a 1%Qc T.
Proof.
  intros H Ha. apply hollow_inv in H. destruct H as (x0 & x1 & y0 & y1 & z0 & z1 & c & -> & _ & -> & _).
  assert (a = 0 \/ a = 1 \/ a = 2) as [-> | [-> | ->]] by lia; touch hollow_sample.
Qed.
Lemma octagon3d_touches cl p s T D a : octagon3d_create cl (Some p) s = Made T D -> a < 3 -> touches a 1%Qc T.
Proof.
  intros H Ha. apply octagon3d_kind in H. destruct H as (h & o & i & -> & _ & _ & -> & _).
  assert (a = 0 \/ a = 1 \/ a = 2) as [-> | [-> | ->]] by lia; touch oct3_sample.
Qed.
Lemma cube_void_touches m p s T D a : cube_void_create m (Some p) s = Made T D -> a < 3 -> touches a 1%Qc T.
Proof.
  intros H Ha. apply void_inv in H. destruct H as (_ & -> & _). generalize (shift (repeat (qc 1 2) 3) (void_points m cube_points (concat p))). intros A.
  assert (a = 0 \/ a = 1 \/ a = 2) as [-> | [-> | ->]] by lia; touch cube_sample.
Qed.
Lemma ball_touches m p s T D a : ellips_create m (Some p) s = Made T D -> a < 3 -> touches a 1%Qc T.
Proof.
  intros H Ha. apply void_inv in H. destruct H as (_ & -> & _). generalize (shift (repeat (qc 1 2) 3) (void_points m (sphere_points m) (concat p))). intros A.
  assert (a = 0 \/ a = 1 \/ a = 2) as [-> | [-> | ->]] by lia; touch ball_sample.
Qed.
Lemma cross3_touches q ce cl bw fh p s T D a : cross3_create q ce cl bw fh (Some p) s = Made T D -> strict ce p -> a < 3 -> open_above a cl \/ beside 3 a cl -> touches a 1%Qc T.
Proof.
  intros H S Ha C. apply cross3_kinds in H. destruct H as (x0 & x1 & y0 & y1 & z0 & z1 & c & -> & _ & B & K). clear S B.
  assert (E : a = 0 \/ a = 1 \/ a = 2) by lia. inversion K; subst; clear K;
  (destruct C as [[C|C]|(b & Hb & Hn & [C|C])]; try discriminate C; destruct E as [-> | [-> | ->]]; try discriminate C;
   try (assert (b = 0 \/ b = 1 \/ b = 2) as [-> | [-> | ->]] by lia; try discriminate C; try lia)); destruct q.
  all: first [touch (plain_sample true) | touch (plain_sample false) | touch (bottom_sample true (qc 1 5)) | touch (bottom_sample false (qc 1 5)) | touch (top_sample true (qc 1 5)) | touch (top_sample false (qc 1 5))].
Qed.
