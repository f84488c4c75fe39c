(** Proofs about HollowOctagon. *)
From Coq Require Import String List Arith Lia ZArith QArith Qcanon Bool.
From Verif Require Import Base BaseQc S_Grid M_Grid S_Spline S_Value S_Deriv M_Core S_Integrate
  M_Tiles M_Tile2D M_Tile3D M_TileMake S_Tiles P_Tiles P_Tile2D.
Import ListNotations.
Local Open Scope list_scope.
Local Open Scope nat_scope.

Definition octagon_family (cl h : Qc) (c : option string) (T : tile) : Prop :=
  match c with
  | None => T = octagon_of octagon_splines cl h
  | Some n => exists f, octagon_closing n = Some f /\ T = octagon_of f cl h
  end.
Lemma octagon_inv cl c p s T D : octagon_create cl c (Some p) s = Made T D ->
  exists h, p = [[h]] /\ (0 < cl /\ cl < 1 /\ 0 < h /\ h < qc 1 2)%Qc /\ octagon_family cl h c T.
Proof.
  unfold octagon_create. intros H. cbv zeta in H. guards H. orders.
  destruct (row_params _ _ Heqb0) as (xs & -> & L). do 2 (destruct xs as [|? xs]; try discriminate L).
  exists q. split; auto. destruct (all_between_in _ _ _ Heqb1 q) as [B1 B2]; [cbn; auto|].
  split; [repeat split; auto; eapply Qclt_trans; eauto; reflexivity|].
  destruct c as [n|]; cbn [octagon_family].
  - guards H. destruct (octagon_closing n) as [f|]; [|discriminate H]. inversion H. exists f. auto.
  - inversion H. reflexivity.
Qed.
(** The auxiliary values. *)
Lemma octagon_room cl h : (0 < cl /\ cl < 1 /\ 0 < h /\ h < qc 1 2 ->
  exists o i, o = cl * qc 1 2 /\ i = cl * h /\ 0 < o /\ o < qc 1 2 /\ 0 < i /\ i < qc 1 2 /\ i < h /\ i < o)%Qc.
Proof.
  intros (A & B & C & D). exists (cl * qc 1 2)%Qc, (cl * h)%Qc. split; auto. split; auto.
  assert (X : (0 < cl * h)%Qc) by (now apply Qc_mul_pos).
  assert (Y : (cl * h < 1 * h)%Qc) by (apply Qcmult_lt_compat_r; auto).
  assert (Z : (h * cl < qc 1 2 * cl)%Qc) by (apply Qcmult_lt_compat_r; auto).
  rewrite Qcmult_1_l in Y. rewrite Qcmult_comm in Z. rewrite (Qcmult_comm (qc 1 2)) in Z.
  clear - A B C D X Y Z. set (i := (cl * h)%Qc) in *. clearbody i. repeat split; auto; qq.
Qed.
Definition octagon_with (f : Qc -> Qc -> Qc -> Qc -> Qc -> Qc -> tile) (h o i : Qc) : tile := f h 0%Qc (qc 1 2) 1%Qc o i.
Lemma octagon_named f cl h o i : o = (cl * qc 1 2)%Qc -> i = (cl * h)%Qc -> octagon_of f cl h = octagon_with f h o i.
Proof. intros -> ->. reflexivity. Qed.
Definition octagon_sample f := octagon_with f (qc 1 5) (qc 3 10) (qc 1 10).
Inductive octagon_kind (c : option string) : (Qc -> Qc -> Qc -> Qc -> Qc -> Qc -> tile) -> Prop :=
| OPlain : c = None -> octagon_kind c octagon_splines
| OXmin : c = Some "x_min"%string -> octagon_kind c octagon_x_min
| OXmax : c = Some "x_max"%string -> octagon_kind c octagon_x_max
| OYmin : c = Some "y_min"%string -> octagon_kind c octagon_y_min
| OYmax : c = Some "y_max"%string -> octagon_kind c octagon_y_max.
Lemma octagon_kinds cl c p s T D : octagon_create cl c (Some p) s = Made T D ->
  exists f h o i, octagon_kind c f /\ o = (cl * qc 1 2)%Qc /\ T = octagon_with f h o i /\
  (0 < h /\ h < qc 1 2 /\ 0 < o /\ o < qc 1 2 /\ 0 < i /\ i < qc 1 2 /\ i < h /\ i < o)%Qc.
Proof.
  intros H. apply octagon_inv in H. destruct H as (h & -> & B & F).
  destruct (octagon_room _ _ B) as (o & i & Eo & Ei & R). destruct B as (_ & _ & B1 & B2).
  destruct c as [n|]; cbn [octagon_family] in F.
  - destruct F as (f & E & ->). exists f, h, o, i. split; [|split; [auto|split; [now apply octagon_named|tauto]]].
    unfold octagon_closing in E.
    repeat match type of E with context [string_dec ?a ?b] => destruct (string_dec a b) as [->|?] end; try discriminate E; inversion E; subst f.
    + now apply OXmin.
    + now apply OXmax.
    + now apply OYmin.
    + now apply OYmax.
  - exists octagon_splines, h, o, i. split; [now apply OPlain|]. split; auto. split; [|tauto]. rewrite F. now apply octagon_named.
Qed.
Ltac open_octagon H f h o i K E R := apply octagon_kinds in H; destruct H as (f & h & o & i & K & E & -> & R).
Lemma octagon_glued cl c c' p p' s s' T T' D D' a :
  octagon_create cl c (Some p) s = Made T D -> octagon_create cl c' (Some p') s' = Made T' D' -> a < 2 ->
  (open_above a c /\ open_below a c') \/ (beside 2 a c /\ c' = c) -> glued 2 a T T'.
Proof.
  intros H H' Ha C. open_octagon H f h o i K E R. open_octagon H' f' h' o' i' K' E' R'.
  assert (o' = o) as -> by congruence. clear E E'. flat.
  destruct C as [(A & B)|((b & Hb & Hn & Hc) & ->)].
  - assert (a = 0 \/ a = 1) as [-> | ->] by lia;
    destruct A as [-> | ->], B as [-> | ->]; inversion K; subst; try discriminate; inversion K'; subst; try discriminate.
    + glue (octagon_sample octagon_splines) (octagon_sample octagon_splines).
    + glue (octagon_sample octagon_splines) (octagon_sample octagon_x_max).
    + glue (octagon_sample octagon_x_min) (octagon_sample octagon_splines).
    + glue (octagon_sample octagon_x_min) (octagon_sample octagon_x_max).
    + glue (octagon_sample octagon_splines) (octagon_sample octagon_splines).
    + glue (octagon_sample octagon_splines) (octagon_sample octagon_y_max).
    + glue (octagon_sample octagon_y_min) (octagon_sample octagon_splines).
    + glue (octagon_sample octagon_y_min) (octagon_sample octagon_y_max).
  - assert (a = 0 \/ a = 1) as [-> | ->] by lia.
    + assert (b = 1) as -> by lia. destruct Hc as [-> | ->]; inversion K; subst; try discriminate; inversion K'; subst; try discriminate.
      * glue (octagon_sample octagon_y_min) (octagon_sample octagon_y_min).
      * glue (octagon_sample octagon_y_max) (octagon_sample octagon_y_max).
    + assert (b = 0) as -> by lia. destruct Hc as [-> | ->]; inversion K; subst; try discriminate; inversion K'; subst; try discriminate.
      * glue (octagon_sample octagon_x_min) (octagon_sample octagon_x_min).
      * glue (octagon_sample octagon_x_max) (octagon_sample octagon_x_max).
Qed.
Lemma octagon_inside cl c p s T D : octagon_create cl c (Some p) s = Made T D -> inside_cell 2 T.
Proof. intros H. open_octagon H f h o i K E R. clear E. flat. inversion K; subst; place. Qed.
Lemma octagon_right cl c p s T D : octagon_create cl c (Some p) s = Made T D -> right_handed T.
Proof.
  intros H. open_octagon H f h o i K E R. clear E. flat. inversion K; subst.
  - orients 2 (octagon_sample octagon_splines); reduce_tables; facts ltac:(arith || products).
  - orients 2 (octagon_sample octagon_x_min); reduce_tables; facts ltac:(arith || products).
  - orients 2 (octagon_sample octagon_x_max); reduce_tables; facts ltac:(arith || products).
  - orients 2 (octagon_sample octagon_y_min); reduce_tables; facts ltac:(arith || products).
  - orients 2 (octagon_sample octagon_y_max); reduce_tables; facts ltac:(arith || products).
Qed.
Lemma octagon_covers cl c p s T D a x : octagon_create cl c (Some p) s = Made T D -> a < 2 -> closes a c x -> covers_side 2 a x T.
Proof.
  intros H Ha C y Hy Ey. open_octagon H f h o i K E R. clear E. flat.
  apply two_box in Hy. destruct Hy as (z0 & z1 & -> & Bz). destruct C as [[-> ->]|[-> ->]]; assert (a = 0 \/ a = 1) as [-> | ->] by lia; cbn [nth] in Ey; subst;
  inversion K; subst; try discriminate; flat.
  - edge 4 0 false 0 1.
  - edge_rev 2 0 false 1 0.
  - edge 0 0 true 0 1.
  - edge_rev 6 0 true 1 0.
Qed.
