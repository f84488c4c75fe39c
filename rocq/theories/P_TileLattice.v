(** Proofs about DoubleLattice. *)
From Coq Require Import String List Arith Lia ZArith QArith Qcanon Bool.
From Verif Require Import Base BaseQc S_Grid M_Grid S_Spline S_Value S_Deriv M_Core S_Integrate
  M_Tiles M_Tile2D M_Tile3D M_TileMake S_Tiles P_Tiles P_Tile2D.
Import ListNotations.
Local Open Scope list_scope.
Local Open Scope nat_scope.

Definition lattice (q cl t d : Qc) : tile := double_lattice_splines q cl t d (qc 1 2) 1 0.
Lemma double_lattice_inv m cl p s T D : double_lattice_create m cl (Some p) s = Made T D ->
  exists t d, p = [[t; d]] /\ (0 < cl /\ cl < 1)%Qc /\ (0 < t /\ 0 < d /\ t < qc 1 2 / (1 + sqrt m (qc 2 1)) /\ d < qc 1 2 / (1 + sqrt m (qc 2 1)))%Qc /\
  T = lattice (sqrt m (qc 2 1)) cl t d /\ D = rates (double_lattice_deriv m) s.
Proof.
  unfold double_lattice_create. intros H. cbv zeta in H. guards H. orders.
  destruct (row_params _ _ Heqb1) as (xs & -> & L). do 3 (destruct xs as [|? xs]; try discriminate L).
  exists q, q0. split; auto. split; auto. assert (B := all_between_in _ _ _ Heqb0).
  destruct (B q) as [B1 B2]; [cbn; auto|]. destruct (B q0) as [B3 B4]; [cbn; auto|].
  split; auto. unfold loop in H. inversion H. auto.
Qed.
Lemma lattice_room q t d : (0 < q -> 0 < t -> 0 < d -> t < qc 1 2 / (1 + q) -> d < qc 1 2 / (1 + q) -> 0 < d * q /\ t + d * q < qc 1 2)%Qc.
Proof.
  intros Hq Ht Hd H1 H2. split; [now apply Qc_mul_pos|].
  assert (P : (0 < 1 + q)%Qc) by qq.
  set (r := (qc 1 2 / (1 + q))%Qc) in *. assert (E : (r + r * q = qc 1 2)%Qc).
  { unfold r. field. intro X. assert (Y : (1 + q = 0)%Qc) by exact X. rewrite Y in P. discriminate P. }
  assert (X : (d * q < r * q)%Qc) by (apply Qcmult_lt_compat_r; auto).
  clearbody r. rewrite <- E. clear - H1 X. set (a := (d * q)%Qc) in *. set (b := (r * q)%Qc) in *. qlra.
Qed.
Definition lattice_sample : tile := lattice 1 (qc 1 2) (qc 1 10) (qc 1 10).
(** The splines in terms of thick_diagonal * sqrt(2). *)
Lemma lattice_of q cl t d : lattice q cl t d = lattice 1 cl t (d * q)%Qc.
Proof. unfold lattice, double_lattice_splines. rewrite Qcmult_1_r. reflexivity. Qed.
Lemma lattice_kind m cl p s T D : double_lattice_create m cl (Some p) s = Made T D -> (0 < sqrt m (qc 2 1))%Qc ->
  (0 < cl /\ cl < 1)%Qc /\ exists t e, (0 < t /\ 0 < e /\ t < qc 1 2 /\ e < qc 1 2 /\ t + e < qc 1 2)%Qc /\ T = lattice 1 cl t e.
Proof.
  intros H Hq. apply double_lattice_inv in H. destruct H as (t & d & -> & C & (Ht & Hd & H1 & H2) & -> & _). split; auto.
  destruct (lattice_room _ _ _ Hq Ht Hd H1 H2) as [A B]. exists t, (d * sqrt m (qc 2 1))%Qc. split; [|apply lattice_of].
  clear - Ht A B. set (e := (d * sqrt m (qc 2 1))%Qc) in *. clearbody e. repeat split; auto; qq.
Qed.
Lemma lattice_glued m m' cl p p' s s' T T' D D' a : (0 < sqrt m (qc 2 1) -> 0 < sqrt m' (qc 2 1) ->
  double_lattice_create m cl (Some p) s = Made T D -> double_lattice_create m' cl (Some p') s' = Made T' D' -> (a < 2)%nat -> glued 2 a T T')%Qc.
Proof.
  intros Hq Hq' H H' Ha. apply lattice_kind in H, H'; auto. destruct H as (C & t & e & R & ->), H' as (_ & t' & e' & R' & ->). flat.
  assert (a = 0 \/ a = 1) as [-> | ->] by lia; glue lattice_sample lattice_sample.
Qed.
Lemma lattice_inside m cl p s T D : double_lattice_create m cl (Some p) s = Made T D -> (0 < sqrt m (qc 2 1))%Qc -> inside_cell 2 T.
Proof. intros H Hq. apply lattice_kind in H; auto. destruct H as (C & t & e & R & ->). flat. place. Qed.
Lemma lattice_right m cl p s T D : double_lattice_create m cl (Some p) s = Made T D -> (0 < sqrt m (qc 2 1))%Qc -> right_handed T.
Proof.
  intros H Hq. apply lattice_kind in H; auto. destruct H as (C & t & e & R & ->). flat. 
  orients 2 lattice_sample. reduce_tables. facts ltac:(arith || products).
Qed.
Lemma lattice_changes m cl p s T Ds : double_lattice_create m cl (Some p) (Some s) = Made T Ds ->
  right_rates 2 (fun p => splines_of (double_lattice_create m cl (Some p) None)) p s T Ds.
Proof.
  intros H. assert (S : exists b, check_param_derivatives 1 2 (Some s) = Some b).
  { clear - H. unfold double_lattice_create in H. cbv zeta in H. guards H. eexists; reflexivity. }
  destruct S as (b & S). apply row_sens in S. destruct S as (ls & -> & L).
  do 3 (destruct ls as [|? ls]; try discriminate L). clear L b.
  apply double_lattice_inv in H. destruct H as (t0 & d0 & -> & _ & _ & -> & ->).
  apply rates_right. intros i Hi. unfold direction, slice. cbn [map].
  generalize (nth i l 0%Qc) (nth i l0 0%Qc). intros e0 e1. clear Hi i l l0.
  apply changes_affine; [all_bez|all_bez|reflexivity|]. intros t T' HT.
  apply splines_of_made in HT. destruct HT as (D' & F).
  apply double_lattice_inv in F. destruct F as (t1 & d1 & E & _ & _ & -> & _). inversion E; subst; clear. unfold lattice.
  split; [all_bez|]. tables.
Qed.
