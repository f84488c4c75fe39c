(** Proofs about the other three dimensional tiles. *)
From Coq Require Import String List Arith Lia ZArith QArith Qcanon Bool.
From Verif Require Import Base BaseQc S_Grid M_Grid S_Spline S_Value S_Deriv M_Core S_Integrate
  M_Tiles M_Tile2D M_Tile3D M_TileMake S_Tiles P_Tiles P_Tile2D P_TileOctagon.
Import ListNotations.
Local Open Scope list_scope.
Local Open Scope nat_scope.

(** ** HollowCube *)
Lemma hollow_inv p s T D : hollow_cube_create (Some p) s = Made T D ->
  exists x0 x1 y0 y1 z0 z1 c, p = [[x0]; [x1]; [y0]; [y1]; [z0]; [z1]; [c]] /\ Forall ok [x0; x1; y0; y1; z0; z1; c] /\
  T = hollow_cube_splines 0%Qc 1%Qc x0 x1 y0 y1 z0 z1 c /\ D = rates (hollow_cube_of 0%Qc) s /\
  (forall s', s = Some s' -> exists b, check_param_derivatives 7 1 (Some s') = Some b).
Proof.
  unfold hollow_cube_create. intros H. cbv zeta in H. guards H.
  destruct (forallb_column _ _ Heqb) as (xs & -> & L). do 8 (destruct xs as [|? xs]; try discriminate L).
  do 7 eexists. split; [reflexivity|]. split; [|split; [|split]].
  - apply Forall_forall. intros x Hx. exact (all_between_in _ _ _ Heqb0 x Hx).
  - unfold loop in H. inversion H. reflexivity.
  - unfold loop in H. inversion H. reflexivity.
  - intros s' ->. eauto.
Qed.
Definition hollow_sample : tile := hollow_cube_splines 0%Qc 1%Qc (qc 1 5) (qc 1 5) (qc 1 6) (qc 1 6) (qc 1 7) (qc 1 7) (qc 1 8).
Ltac sides0 := repeat match goal with H : Forall _ (_ :: _) |- _ => inversion H; clear H; subst end; unfold ok in *; flat.
Lemma hollow_glued p p' s s' T T' D D' a : hollow_cube_create (Some p) s = Made T D -> hollow_cube_create (Some p') s' = Made T' D' -> a < 3 ->
  at2 p (2 * a + 1) 0 = at2 p' (2 * a) 0 -> glued 3 a T T'.
Proof.
  intros H H' Ha E. apply hollow_inv in H, H'.
  destruct H as (x0 & x1 & y0 & y1 & z0 & z1 & c & -> & B & -> & _). destruct H' as (x0' & x1' & y0' & y1' & z0' & z1' & c' & -> & B' & -> & _).
  assert (a = 0 \/ a = 1 \/ a = 2) as [-> | [-> | ->]] by lia; cbn [at2 nth Nat.mul Nat.add] in E; subst; sides0; glue hollow_sample hollow_sample.
Qed.
Lemma hollow_inside p s T D : hollow_cube_create (Some p) s = Made T D -> inside_cell 3 T.
Proof.
  intros H. apply hollow_inv in H. destruct H as (x0 & x1 & y0 & y1 & z0 & z1 & c & -> & B & -> & _). sides0. place.
Qed.
Lemma hollow_changes p s T Ds : hollow_cube_create (Some p) (Some s) = Made T Ds ->
  right_rates 3 (fun p => splines_of (hollow_cube_create (Some p) None)) p s T Ds.
Proof.
  intros H. apply hollow_inv in H. destruct H as (x0 & x1 & y0 & y1 & z0 & z1 & c & -> & _ & -> & -> & S).
  destruct (S s eq_refl) as (b & S'). clear S. apply column3 in S'. destruct S' as (ls & -> & L).
  do 8 (destruct ls as [|? ls]; try discriminate L). clear L b.
  apply rates_right; intros i Hi; unfold direction, slice; cbn [map].
  generalize (nth i l 0%Qc) (nth i l0 0%Qc) (nth i l1 0%Qc) (nth i l2 0%Qc) (nth i l3 0%Qc) (nth i l4 0%Qc) (nth i l5 0%Qc).
  intros d0 d1 d2 d3 d4 d5 d6. clear Hi i l l0 l1 l2 l3 l4 l5.
  apply changes_affine; [all_bez|all_bez|reflexivity|].
  intros t T' HT. apply splines_of_made in HT. destruct HT as (D' & HT). apply hollow_inv in HT.
  destruct HT as (x0' & x1' & y0' & y1' & z0' & z1' & c' & E & _ & -> & _). inversion E; subst; clear.
  split; [all_bez|reduce_tables; facts ltac:(first [reflexivity | unfold Qcdiv; ring])].
Qed.
(** ** HollowOctagonExtrude *)
Definition oct3 (h o i : Qc) : tile := octagon3d_splines h 0%Qc (qc 1 2) 1%Qc o i.
Lemma octagon3d_kind cl p s T D : octagon3d_create cl (Some p) s = Made T D ->
  exists h o i, p = [[h]] /\ o = (cl * qc 1 2)%Qc /\ i = (cl * h)%Qc /\ T = oct3 h o i /\
  (0 < h /\ h < qc 1 2 /\ 0 < o /\ o < qc 1 2 /\ 0 < i /\ i < qc 1 2 /\ i < h /\ i < o)%Qc.
Proof.
  unfold octagon3d_create. intros H. cbv zeta in H. guards H. orders. subst.
  destruct (row_params _ _ Heqb0) as (xs & -> & L). do 2 (destruct xs as [|? xs]; try discriminate L).
  cbn [at2 nth] in *. rename q into h. assert (B : (0 < cl /\ cl < 1 /\ 0 < h /\ h < qc 1 2)%Qc).
  { repeat match goal with H : (_ < _)%Qc |- _ => revert H end. clear. intros. repeat split; auto; qq. }
  destruct (octagon_room _ _ B) as (o & i & Eo & Ei & R). exists h, o, i. split; auto. split; auto. split; auto.
  inversion H. split; [|tauto]. unfold octagon_of, oct3. now rewrite <- Eo, <- Ei.
Qed.
Definition oct3_sample : tile := oct3 (qc 1 5) (qc 3 10) (qc 1 10).
Lemma octagon3d_glued cl p p' s s' T T' D D' a : octagon3d_create cl (Some p) s = Made T D -> octagon3d_create cl (Some p') s' = Made T' D' -> a < 3 ->
  (a = 2 -> p' = p) -> glued 3 a T T'.
Proof.
  intros H H' Ha E. apply octagon3d_kind in H, H'. destruct H as (h & o & i & -> & Eo & Ei & -> & R), H' as (h' & o' & i' & -> & Eo' & Ei' & -> & R').
  assert (o' = o) as -> by congruence. 
  assert (a = 0 \/ a = 1 \/ a = 2) as [-> | [-> | ->]] by lia.
  - clear Eo Eo' Ei Ei' E. flat. glue oct3_sample oct3_sample.
  - clear Eo Eo' Ei Ei' E. flat. glue oct3_sample oct3_sample.
  - specialize (E eq_refl). inversion E; subst h'. assert (i' = i) as -> by congruence. clear Eo Eo' Ei Ei' E. flat. glue oct3_sample oct3_sample.
Qed.
Lemma octagon3d_inside cl p s T D : octagon3d_create cl (Some p) s = Made T D -> inside_cell 3 T.
Proof. intros H. apply octagon3d_kind in H. destruct H as (h & o & i & -> & _ & _ & -> & R). flat. place. Qed.
Lemma octagon3d_right cl p s T D : octagon3d_create cl (Some p) s = Made T D -> right_handed T.
Proof.
  intros H. apply octagon3d_kind in H. destruct H as (h & o & i & -> & _ & _ & -> & R). flat.
  orients 3 oct3_sample; reduce_tables; facts ltac:(arith || products).
Qed.
