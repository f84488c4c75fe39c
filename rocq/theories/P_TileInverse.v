(** Proofs about InverseCross3D: gluing and position in the cell. *)
From Coq Require Import String List Arith Lia ZArith QArith Qcanon Bool.
From Verif Require Import Base BaseQc S_Grid M_Grid S_Spline S_Value S_Deriv M_Core S_Integrate
  M_Tiles M_Tile2D M_Tile3D M_TileMake M_TileInverse S_Tiles S_TileFit P_Tiles P_Tile2D P_Tile3D P_TileCross3 P_TileTouch P_TileFit.
Import ListNotations.
Local Open Scope list_scope.
Local Open Scope nat_scope.

Definition sep_of (sep : option Qc) : Qc := match sep with None => qc 3 10 | Some x => x end.
Definition inv_r (ce sep x : Qc) : Prop := (0 <= x /\ qc 1 2 - sep <= x /\ x <= sep /\ x <= qc 1 2 /\ x * ce <= qc 1 2)%Qc.
Definition center (ce : Qc) (x0 x1 y0 y1 z0 z1 : Qc) : Qc := ((x0 + x1 + y0 + y1 + z0 + z1) / qc 6 1 * ce)%Qc.
Inductive inv_kind (cl : option string) (bw fh sep : Qc) (x0 x1 y0 y1 z0 z1 c : Qc) : tile -> Prop :=
| IPlain : cl = None -> inv_kind cl bw fh sep x0 x1 y0 y1 z0 z1 c
    (inv3 sep c x0 x1 y0 y1 z0 z1 (qmin x0 c) (qmin x1 c) (qmin y0 c) (qmin y1 c) (qmin z0 c) (qmin z1 c))
| IBottom : cl = Some "z_min"%string -> width_ok bw fh -> (0 < z1 /\ z1 < qc 1 2)%Qc -> inv_kind cl bw fh sep x0 x1 y0 y1 z0 z1 c (inv_bottom bw fh sep z1)
| ITop : cl = Some "z_max"%string -> width_ok bw fh -> (0 < z0 /\ z0 < qc 1 2)%Qc -> inv_kind cl bw fh sep x0 x1 y0 y1 z0 z1 c (inv_top bw fh sep z0).
Lemma qmax_le x y z : (qmax x y <= z)%Qc -> (x <= z /\ y <= z)%Qc.
Proof.
  unfold qmax. destruct (qleb x y) eqn:E; intros H.
  - apply qleb_le in E. split; auto. eapply Qcle_trans; eauto.
  - apply qleb_gt in E. split; auto. eapply Qcle_trans; [apply Qclt_le_weak; exact E|auto].
Qed.
Lemma inverse_kinds ce sep cl bw fh p s T D : inverse_create ce sep cl bw fh (Some p) s = Made T D ->
  ce_ok ce /\ s = None /\ exists x0 x1 y0 y1 z0 z1, p = [[x0]; [x1]; [y0]; [y1]; [z0]; [z1]] /\
  Forall (inv_r ce (sep_of sep)) [x0; x1; y0; y1; z0; z1] /\
  inv_kind cl bw fh (sep_of sep) x0 x1 y0 y1 z0 z1 (center ce x0 x1 y0 y1 z0 z1) T.
Proof.
  intros H. unfold inverse_create in H. fold (sep_of sep) in H. cbv zeta in H.
  destruct (qltb (qc 1 2) ce && qltb ce (qc 3 2)) eqn:C; cbn [negb] in H; [|discriminate H].
  destruct s; [discriminate H|].
  destruct (check_params 6 1 p) eqn:P; cbn [negb] in H; [|discriminate H].
  destruct (existsb _ _ || existsb _ _) eqn:R; [discriminate H|].
  apply orb_false_iff in R. destruct R as [R1 R2]. orders.
  split; [split; auto|]. split; auto.
  destruct (forallb_column _ _ P) as (xs & -> & L). do 7 (destruct xs as [|? xs]; try discriminate L).
  do 6 eexists. split; [reflexivity|]. split.
  - apply Forall_forall. intros x Hx.
    assert (A := existsb_none _ _ R1 x Hx). assert (B := existsb_none _ _ R2 x Hx). cbv beta in A, B. apply qltb_ge in A. apply qltb_ge in B.
    apply qmin_le in B. destruct B as [B1 B2]. apply qmin_le in B1. destruct B1 as [B0 B1]. apply qmax_le in A. destruct A as [A1 A2].
    repeat split; auto. apply le_half_div; auto. clear -H0. qq.
  - destruct cl as [c|].
    + guards H. orders. cbn [map at2 nth] in H.
      assert (Z : forall x, In x (concat (map (fun x => [x]) [q; q0; q1; q2; q3; q4])) -> (0 < x /\ x < qc 1 2)%Qc) by (intros x Hx; eapply all_between_in; eauto).
      repeat match type of H with context [string_dec ?a ?b] => destruct (string_dec a b) as [->|?] end; try discriminate H; inversion H; subst.
      * apply IBottom; auto; [repeat split; auto|]. apply Z. cbn. tauto.
      * apply ITop; auto; [repeat split; auto|]. apply Z. cbn. tauto.
    + inversion H. subst. apply (IPlain None). reflexivity.
Qed.
Lemma center_bound ce sep x0 x1 y0 y1 z0 z1 : (ce_ok ce -> Forall (inv_r ce sep) [x0; x1; y0; y1; z0; z1] ->
  0 <= center ce x0 x1 y0 y1 z0 z1 /\ center ce x0 x1 y0 y1 z0 z1 <= qc 1 2 /\
  (Forall (fun x => x * ce < qc 1 2) [x0; x1; y0; y1; z0; z1] -> center ce x0 x1 y0 y1 z0 z1 < qc 1 2))%Qc.
Proof.
  intros [C _] H.
  assert (Hc : (0 <= ce)%Qc) by (clear -C; qq).
  assert (P : forall x, (0 <= x)%Qc -> (0 <= x * ce)%Qc) by (intros; replace 0%Qc with (0 * ce)%Qc by ring; now apply Qcmult_le_compat_r).
  unfold center.
  replace ((x0 + x1 + y0 + y1 + z0 + z1) / qc 6 1 * ce)%Qc with ((x0 * ce + x1 * ce + y0 * ce + y1 * ce + z0 * ce + z1 * ce) * qc 1 6)%Qc
    by (unfold Qcdiv; replace (/ qc 6 1)%Qc with (qc 1 6) by (apply Qc_is_canon; reflexivity); ring).
  repeat match goal with H : Forall _ (_ :: _) |- _ => inversion H; clear H; subst end.
  unfold inv_r in *. flat.
  assert (P0 := P x0 ltac:(assumption)). assert (P1 := P x1 ltac:(assumption)). assert (P2 := P y0 ltac:(assumption)).
  assert (P3 := P y1 ltac:(assumption)). assert (P4 := P z0 ltac:(assumption)). assert (P5 := P z1 ltac:(assumption)). clear P.
  split; [|split].
  - clear - P0 P1 P2 P3 P4 P5. set (xa := (x0 * ce)%Qc) in *. set (xb := (x1 * ce)%Qc) in *. set (xc := (y0 * ce)%Qc) in *. set (xd := (y1 * ce)%Qc) in *. set (xe := (z0 * ce)%Qc) in *. set (xf := (z1 * ce)%Qc) in *. qq.
  - set (xa := (x0 * ce)%Qc) in *. set (xb := (x1 * ce)%Qc) in *. set (xc := (y0 * ce)%Qc) in *. set (xd := (y1 * ce)%Qc) in *. set (xe := (z0 * ce)%Qc) in *. set (xf := (z1 * ce)%Qc) in *.
    repeat match goal with H : (0 <= ?x)%Qc |- _ => clear H | H : (qc 1 2 - _ <= _)%Qc |- _ => clear H | H : (_ <= sep)%Qc |- _ => clear H end. qq.
  - intros S. repeat match goal with H : Forall _ (_ :: _) |- _ => inversion H; clear H; subst end.
    set (xa := (x0 * ce)%Qc) in *. set (xb := (x1 * ce)%Qc) in *. set (xc := (y0 * ce)%Qc) in *. set (xd := (y1 * ce)%Qc) in *. set (xe := (z0 * ce)%Qc) in *. set (xf := (z1 * ce)%Qc) in *.
    repeat match goal with H : (0 <= ?x)%Qc |- _ => clear H | H : (qc 1 2 - _ <= _)%Qc |- _ => clear H | H : (_ <= sep)%Qc |- _ => clear H | H : (_ <= qc 1 2)%Qc |- _ => clear H end. qq.
Qed.
Definition half (x : Qc) : Prop := (0 <= x /\ x <= qc 1 2)%Qc.
Lemma half_min x y : half x -> half y -> half (qmin x y).
Proof. unfold qmin. destruct (qleb x y); auto. Qed.
Ltac parts := repeat match goal with H : Forall _ (_ :: _) |- _ => inversion H; clear H; subst end; unfold half, ok, width_ok in *; flat.
Lemma inv3_inside sep c x0 x1 y0 y1 z0 z1 a0 a1 b0 b1 d0 d1 : (qc 1 4 <= sep)%Qc -> Forall half [sep; c; x0; x1; y0; y1; z0; z1; a0; a1; b0; b1; d0; d1] ->
  inside_cell 3 (inv3 sep c x0 x1 y0 y1 z0 z1 a0 a1 b0 b1 d0 d1).
Proof. intros S H. parts. (apply inside_by; [all_bez|reduce_tables; facts ltac:(relevant_le; qq || reflexivity)]). Qed.
Lemma closing_inside bw fh sep b : (qc 1 4 <= sep)%Qc -> half sep -> half b -> width_ok bw fh ->
  inside_cell 3 (inv_bottom bw fh sep b) /\ inside_cell 3 (inv_top bw fh sep b).
Proof. intros S H H' W. parts. split; (apply inside_by; [all_bez|reduce_tables; facts ltac:(relevant_le; qq || reflexivity)]). Qed.
Lemma inverse_inside ce sep cl bw fh p s T D : inverse_create ce sep cl bw fh (Some p) s = Made T D -> (sep_of sep <= qc 1 2)%Qc -> inside_cell 3 T.
Proof.
  intros H S. apply inverse_kinds in H. destruct H as (C & _ & x0 & x1 & y0 & y1 & z0 & z1 & -> & B & K).
  destruct (center_bound _ _ _ _ _ _ _ _ C B) as (M1 & M2 & _).
  assert (Q : (qc 1 4 <= sep_of sep)%Qc).
  { inversion B as [|? ? (_ & B1 & B2 & _) _]; subst. clear - B1 B2. qq. }
  assert (S0 : half (sep_of sep)) by (split; [clear -Q; qq|auto]).
  assert (F : forall x, In x [x0; x1; y0; y1; z0; z1] -> half x).
  { rewrite Forall_forall in B. intros x Hx. destruct (B x Hx) as (? & _ & _ & ? & _). split; auto. }
  inversion K; subst.
  - apply inv3_inside; auto. set (c := center ce x0 x1 y0 y1 z0 z1) in *. assert (half c) by (split; auto).
    assert (half x0 /\ half x1 /\ half y0 /\ half y1 /\ half z0 /\ half z1) by (repeat split; apply F; cbn; tauto). flat.
    clearbody c. clear K.
    repeat (apply Forall_cons; [lazymatch goal with |- half (qmin _ _) => apply half_min; assumption | |- _ => assumption end|]); apply Forall_nil.
  - refine (proj1 (closing_inside bw fh (sep_of sep) z1 Q S0 _ H0)). apply F. cbn. tauto.
  - refine (proj2 (closing_inside bw fh (sep_of sep) z0 Q S0 _ H0)). apply F. cbn. tauto.
Qed.
