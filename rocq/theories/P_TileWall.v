(** Proofs about Cross3D and Cross3DLinear: orientation, walls, derivatives. *)
From Coq Require Import String List Arith Lia ZArith QArith Qcanon Bool.
From Verif Require Import Base BaseQc S_Grid M_Grid S_Spline S_Value S_Deriv M_Core S_Integrate
  M_Tiles M_Tile2D M_Tile3D M_TileMake S_Tiles P_Tiles P_Tile2D P_TileCross3.
Import ListNotations.
Local Open Scope list_scope.
Local Open Scope nat_scope.
Lemma cross3_right q ce cl bw fh p s T D : cross3_create q ce cl bw fh (Some p) s = Made T D -> strict ce p -> right_handed T.
Proof.
  intros H S. apply cross3_kinds in H. destruct H as (x0 & x1 & y0 & y1 & z0 & z1 & c & -> & _ & B & K). specialize (B S). clear S.
  inversion K; subst; [|apply start_two in H1; [|apply H0]; destruct H1 as [-> | ?] .. ]; clear K; sides; destruct q.
  - orients 3 (plain_sample true); reduce_tables; facts ltac:(arith).
  - orients 3 (plain_sample false); reduce_tables; facts ltac:(arith).
  - orients 3 (bottom_sample true 0%Qc); reduce_tables; facts ltac:(arith).
  - orients 3 (bottom_sample false 0%Qc); reduce_tables; facts ltac:(arith).
  - orients 3 (bottom_sample true (qc 1 5)); reduce_tables; facts ltac:(arith).
  - orients 3 (bottom_sample false (qc 1 5)); reduce_tables; facts ltac:(arith).
  - orients 3 (top_sample true 0%Qc); reduce_tables; facts ltac:(arith).
  - orients 3 (top_sample false 0%Qc); reduce_tables; facts ltac:(arith).
  - orients 3 (top_sample true (qc 1 5)); reduce_tables; facts ltac:(arith).
  - orients 3 (top_sample false (qc 1 5)); reduce_tables; facts ltac:(arith).
Qed.
Lemma three_box y : in_box 3 y -> exists y0 y1 y2, y = [y0; y1; y2] /\ (0 <= y0 /\ y0 <= 1 /\ 0 <= y1 /\ y1 <= 1 /\ 0 <= y2 /\ y2 <= 1)%Qc.
Proof.
  intros [L B]. destruct y as [|y0 [|y1 [|y2 [|? ?]]]]; try discriminate L. exists y0, y1, y2. inversion B as [|? ? ? B']; inversion B' as [|? ? ? B'']; inversion B''; subst. intuition.
Qed.
(** A block of the wall covers its rectangle of the side. *)
Lemma wall_block T x0 x1 y0 y1 z0 z1 (up : bool) a b c : In (box x0 x1 y0 y1 z0 z1) T ->
  (x0 < x1 -> y0 < y1 -> x0 <= a -> a <= x1 -> y0 <= b -> b <= y1 -> c = (if up then z1 else z0) ->
  exists p u, In p T /\ in_box (para_dim p) u /\ forall k, (k < 3)%nat -> sp_value p u k = nth k [a; b; c] 0)%Qc.
Proof.
  intros H A1 A2 B1 B2 B3 B4 E.
  destruct (rectangle_covers (box x0 x1 y0 y1 z0 z1) 2 up 2 0 1 c a b
    [x0; y0; c] [x1; y0; c] [x0; y1; c] [x1; y1; c]) as (u & U & V2 & V0 & V1); auto; try reflexivity.
  { destruct up; rewrite E; reflexivity. }
  exists (box x0 x1 y0 y1 z0 z1), u. split; auto. split; auto. intros [|[|[|k]]] Hk; auto. lia.
Qed.
Lemma wall_covers T w l z0 z1 (up : bool) a b c : (forall p, In p (wall w l z0 z1) -> In p T) ->
  (0 < w -> w < qc 1 2 -> l = 0 -> 0 <= a -> a <= 1 -> 0 <= b -> b <= 1 -> c = (if up then z1 else z0) ->
  exists p u, In p T /\ in_box (para_dim p) u /\ forall k, (k < 3)%nat -> sp_value p u k = nth k [a; b; c] 0)%Qc.
Proof.
  intros I W1 W2 -> A1 A2 B1 B2 E. unfold wall in I.
  assert (W : (w < 1 - w)%Qc) by qq. assert (W3 : (1 - w < 1)%Qc) by qq.
  assert (X : (1 - 0 = 1)%Qc) by ring. rewrite X in I.
  destruct (Qclt_le_dec a w) as [La|La]; [|destruct (Qclt_le_dec a (1 - w)%Qc) as [La2|La2]];
  (destruct (Qclt_le_dec b w) as [Lb|Lb]; [|destruct (Qclt_le_dec b (1 - w)%Qc) as [Lb2|Lb2]]).
  - eapply (wall_block _ 0 w 0 w z0 z1 up); [apply I; cbn [In]; tauto|..]; auto using Qclt_le_weak.
  - eapply (wall_block _ 0 w w (1 - w) z0 z1 up)%Qc; [apply I; cbn [In]; tauto|..]; auto using Qclt_le_weak.
  - eapply (wall_block _ 0 w (1 - w) 1 z0 z1 up)%Qc; [apply I; cbn [In]; tauto|..]; auto using Qclt_le_weak.
  - eapply (wall_block _ w (1 - w) 0 w z0 z1 up)%Qc; [apply I; cbn [In]; tauto|..]; auto using Qclt_le_weak.
  - eapply (wall_block _ w (1 - w) w (1 - w) z0 z1 up)%Qc; [apply I; cbn [In]; tauto|..]; auto using Qclt_le_weak.
  - eapply (wall_block _ w (1 - w) (1 - w) 1 z0 z1 up)%Qc; [apply I; cbn [In]; tauto|..]; auto using Qclt_le_weak.
  - eapply (wall_block _ (1 - w) 1 0 w z0 z1 up)%Qc; [apply I; cbn [In]; tauto|..]; auto using Qclt_le_weak.
  - eapply (wall_block _ (1 - w) 1 w (1 - w) z0 z1 up)%Qc; [apply I; cbn [In]; tauto|..]; auto using Qclt_le_weak.
  - eapply (wall_block _ (1 - w) 1 (1 - w) 1 z0 z1 up)%Qc; [apply I; cbn [In]; tauto|..]; auto using Qclt_le_weak.
Qed.
Lemma cross3_covers q ce cl bw fh p s T D a x : cross3_create q ce cl bw fh (Some p) s = Made T D -> a < 3 -> (bw <= qc 1 3)%Qc -> closes a cl x -> covers_side 3 a x T.
Proof.
  intros H Ha Hw C y Hy Ey. apply cross3_kinds in H. destruct H as (x0 & x1 & y0 & y1 & z0 & z1 & c & -> & _ & _ & K).
  apply three_box in Hy. destruct Hy as (v0 & v1 & v2 & -> & V). flat.
  assert (L : forall l, start bw l -> l = 0%Qc).
  { intros l [[_ ->]|[X _]]; auto. exfalso. apply (Qclt_not_le _ _ X Hw). }
  assert (a = 0 \/ a = 1 \/ a = 2) as [-> | [-> | ->]] by lia; destruct C as [[-> ->]|[-> ->]]; cbn [nth] in Ey; subst; inversion K; subst; try discriminate.
  - destruct H6 as (W1 & W2 & _). eapply (wall_covers _ bw l 0 fh false)%Qc; auto. intros q0 Hq. apply in_app_iff. auto.
  - destruct H6 as (W1 & W2 & _). eapply (wall_covers _ bw l (1 - fh) 1 true)%Qc; auto. intros q0 Hq. apply in_app_iff. auto.
Qed.
Lemma cross3_changes q ce cl bw fh p s T Ds : cross3_create q ce cl bw fh (Some p) (Some s) = Made T Ds ->
  right_rates 3 (fun p => splines_of (cross3_create q ce cl bw fh (Some p) None)) p s T Ds.
Proof.
  intros H. apply cross3_inv in H. destruct H as (C & (x0 & x1 & y0 & y1 & z0 & z1 & -> & _) & S & M).
  destruct (S s eq_refl) as (b & S'). clear S. apply column3 in S'. destruct S' as (ls & -> & L).
  do 7 (destruct ls as [|? ls]; try discriminate L). clear L b.
  assert (G : forall d t T', splines_of (cross3_create q ce cl bw fh (Some (moved [[x0]; [x1]; [y0]; [y1]; [z0]; [z1]] d t)) None) = Some T' ->
    exists D, cross3_made q ce cl bw fh (moved [[x0]; [x1]; [y0]; [y1]; [z0]; [z1]] d t) None T' D).
  { intros d t T' E. apply splines_of_made in E. destruct E as (D & E). apply cross3_inv in E. exists D. tauto. }
  inversion M; subst; apply rates_right; intros i Hi; unfold direction, slice; cbn [map];
  generalize (nth i l 0%Qc) (nth i l0 0%Qc) (nth i l1 0%Qc) (nth i l2 0%Qc) (nth i l3 0%Qc) (nth i l4 0%Qc); intros d0 d1 d2 d3 d4 d5; clear M Hi i l l0 l1 l2 l3 l4 C;
  destruct q; (apply changes_affine; [all_bez|all_bez|reflexivity|]);
  intros t T' HT; apply G in HT; destruct HT as (D' & HT); inversion HT; subst; try discriminate; clear;
  (split; [all_bez|reduce_tables; facts ltac:(first [reflexivity | unfold Qcdiv; ring])]).
Qed.
