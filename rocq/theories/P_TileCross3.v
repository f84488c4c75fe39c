(** Proofs about Cross3D and Cross3DLinear. *)
From Coq Require Import String List Arith Lia ZArith QArith Qcanon Bool.
From Verif Require Import Base BaseQc S_Grid M_Grid S_Spline S_Value S_Deriv M_Core S_Integrate
  M_Tiles M_Tile2D M_Tile3D M_TileMake S_Tiles P_Tiles P_Tile2D.
Import ListNotations.
Local Open Scope list_scope.
Local Open Scope nat_scope.

(** ** Cross3D and Cross3DLinear: [q] tells which *)
Definition inner_r (ce x : Qc) : Prop := (0 < x /\ x <= qc 1 2 /\ x * ce <= qc 1 2)%Qc.
Definition cross3_create (q : bool) := if q then cross3d_create else cross3dlin_create.
Definition cross3_value (q : bool) := if q then cross3d_value else cross3dlin_value.
Definition cross3_deriv (q : bool) := if q then cross3d_deriv else cross3dlin_deriv.
Definition cross3_top (q : bool) (bw fh b : Qc) : tile :=
  if q then cross3d_closing_value cross3d_z_max bw fh b else cross3dlin_closing_value cross3dlin_z_max bw fh b.
Definition cross3_bottom (q : bool) (bw fh b : Qc) : tile :=
  if q then cross3d_closing_value cross3d_z_min bw fh b else cross3dlin_closing_value cross3dlin_z_min bw fh b.
Definition cross3_top_deriv (q : bool) (b : Qc) : tile :=
  if q then cross3d_closing_deriv cross3d_z_max b else cross3dlin_closing_deriv cross3dlin_z_max b.
Definition cross3_bottom_deriv (q : bool) (b : Qc) : tile :=
  if q then cross3d_closing_deriv cross3d_z_min b else cross3dlin_closing_deriv cross3dlin_z_min b.
Inductive cross3_made (q : bool) (ce : Qc) (cl : option string) (bw fh : Qc) (p : array2) (s : option array3) : tile -> option (list tile) -> Prop :=
| CPlain : cl = None -> cross3_made q ce cl bw fh p s (cross3_value q ce p) (rates (cross3_deriv q ce) s)
| CBottom : cl = Some "z_min"%string -> width_ok bw fh -> (forall x, In x (concat p) -> (x < qc 1 2)%Qc) ->
    cross3_made q ce cl bw fh p s (cross3_bottom q bw fh (at2 p 5 0)) (rates (fun d => cross3_bottom_deriv q (at2 d 5 0)) s)
| CTop : cl = Some "z_max"%string -> width_ok bw fh -> (forall x, In x (concat p) -> (x < qc 1 2)%Qc) ->
    cross3_made q ce cl bw fh p s (cross3_top q bw fh (at2 p 4 0)) (rates (fun d => cross3_top_deriv q (at2 d 4 0)) s).
Lemma existsb_none (f : Qc -> bool) l : existsb f l = false -> forall x, In x l -> f x = false.
Proof. intros H x Hx. destruct (f x) eqn:E; auto. rewrite <- H. symmetry. apply existsb_exists. eauto. Qed.
Lemma le_half_div x c : (0 < c)%Qc -> (x <= qc 1 2 / c)%Qc -> (x * c <= qc 1 2)%Qc.
Proof.
  intros Hc H. replace (qc 1 2) with (qc 1 2 / c * c)%Qc.
  - apply Qcmult_le_compat_r; auto. now apply Qclt_le_weak.
  - field. intro. subst. discriminate Hc.
Qed.
Lemma qmin_le x y z : (x <= qmin y z)%Qc -> (x <= y /\ x <= z)%Qc.
Proof.
  unfold qmin. destruct (qleb y z) eqn:E; intros H.
  - apply qleb_le in E. split; auto. eapply Qcle_trans; eauto.
  - apply qleb_gt in E. split; auto. eapply Qcle_trans; [exact H|]. now apply Qclt_le_weak.
Qed.
Lemma cross3_inv q ce cl bw fh p s T D : cross3_create q ce cl bw fh (Some p) s = Made T D ->
  ce_ok ce /\ (exists a b c d e f, p = [[a]; [b]; [c]; [d]; [e]; [f]] /\ Forall (inner_r ce) [a; b; c; d; e; f]) /\
  (forall s', s = Some s' -> exists b, check_param_derivatives 6 1 (Some s') = Some b) /\ cross3_made q ce cl bw fh p s T D.
Proof.
  intros H.
  assert (G : exists plain closing, cross3d_checks ce cl bw fh (Some p) s plain closing = Made T D /\
    (cl = None -> plain p = Made T D -> cross3_made q ce cl bw fh p s T D) /\
    (forall c f, cl = Some c -> closing c = Some f -> f p = Made T D -> width_ok bw fh -> (forall x, In x (concat p) -> (x < qc 1 2)%Qc) -> cross3_made q ce cl bw fh p s T D)).
  { destruct q; cbn [cross3_create] in H; unfold cross3d_create, cross3dlin_create in H; (eexists; eexists; split; [exact H|]);
    (split; [intros -> E; inversion E; subst; now constructor|]);
    intros c f -> E F W B; revert E F; repeat match goal with |- context [string_dec ?a ?b] => destruct (string_dec a b) as [->|?] end;
    try discriminate; intros E F; injection E as <-; unfold loop in F; injection F as <- <-.
    - exact (CBottom true ce _ bw fh p s eq_refl W B).
    - exact (CTop true ce _ bw fh p s eq_refl W B).
    - exact (CBottom false ce _ bw fh p s eq_refl W B).
    - exact (CTop false ce _ bw fh p s eq_refl W B). }
  destruct G as (plain & closing & G & GP & GC). clear H. unfold cross3d_checks in G. cbv zeta in G.
  destruct (qltb (qc 1 2) ce && qltb ce (qc 3 2)) eqn:C; cbn [negb] in G; [|discriminate G].
  destruct (check_params 6 1 p) eqn:P; cbn [negb] in G; [|discriminate G].
  destruct (existsb _ _ || existsb _ _) eqn:R; [discriminate G|].
  apply orb_false_iff in R. destruct R as [R1 R2]. orders.
  split; [split; auto|]. split; [|split].
  - destruct (forallb_column _ _ P) as (xs & -> & L). do 7 (destruct xs as [|? xs]; try discriminate L).
    do 6 eexists. split; [reflexivity|]. apply Forall_forall. intros x Hx.
    assert (A := existsb_none _ _ R1 x Hx). assert (B := existsb_none _ _ R2 x Hx). cbv beta in A, B. apply qleb_gt in A. apply qltb_ge in B.
    apply qmin_le in B. destruct B as [B1 B2]. repeat split; auto. apply le_half_div; auto. clear -H. qq.
  - intros s' ->. destruct (check_param_derivatives 6 1 (Some s')); [eauto|discriminate G].
  - destruct (check_param_derivatives 6 1 s); cbn [bind_derivatives] in G; [|discriminate G].
    destruct cl as [c|]; [|now apply GP].
    guards G. orders. destruct (closing c) as [f|] eqn:F; [|discriminate G].
    eapply GC; eauto; [repeat split; auto|]. intros x Hx. eapply all_between_in; eauto.
Qed.
Definition box (x0 x1 y0 y1 z0 z1 : Qc) : spline :=
  bez [1; 1; 1] [[x0; y0; z0]; [x1; y0; z0]; [x0; y1; z0]; [x1; y1; z0]; [x0; y0; z1]; [x1; y0; z1]; [x0; y1; z1]; [x1; y1; z1]].
Definition sq (r z : Qc) : list (list Qc) :=
  [[qc 1 2 - r; qc 1 2 - r; z]; [qc 1 2 + r; qc 1 2 - r; z]; [qc 1 2 - r; qc 1 2 + r; z]; [qc 1 2 + r; qc 1 2 + r; z]]%Qc.
(** The blocks of the wall; the side blocks begin at [l]. *)
Definition wall (w l z0 z1 : Qc) : tile :=
  [box 0 w 0 w z0 z1; box 0 w (1 - w) 1 z0 z1; box (1 - w) 1 0 w z0 z1; box (1 - w) 1 (1 - w) 1 z0 z1;
   box w (1 - w) w (1 - w) z0 z1; box l w w (1 - w) z0 z1; box w (1 - w) l w z0 z1;
   box (1 - w) (1 - l) w (1 - w) z0 z1; box w (1 - w) (1 - w) (1 - l) z0 z1]%Qc.
Definition bottom3 (q : bool) (w l f b : Qc) : tile :=
  wall w l 0 f ++ [if q then bez [1%nat; 1%nat; 2%nat] (sq (qc 1 2 - w) f ++ sq b ((1 + f) * qc 1 2) ++ sq b 1)
                   else bez [1%nat; 1%nat; 1%nat] (sq (qc 1 2 - w) f ++ sq b 1)]%Qc.
Definition top3 (q : bool) (w l f b : Qc) : tile :=
  wall w l (1 - f) 1 ++ [if q then bez [1%nat; 1%nat; 2%nat] (sq b 0 ++ sq b (1 - (1 + f) * qc 1 2) ++ sq (qc 1 2 - w) (1 - f))
                   else bez [1%nat; 1%nat; 1%nat] (sq b 0 ++ sq (qc 1 2 - w) (1 - f))]%Qc.
Definition start (w l : Qc) : Prop := (w <= qc 1 3 /\ l = 0)%Qc \/ (qc 1 3 < w /\ l = qc 3 1 * w - 1)%Qc.
Lemma start_exists w : exists l, start w l.
Proof. destruct (Qclt_le_dec (qc 1 3) w); [exists (qc 3 1 * w - 1)%Qc; right|exists 0%Qc; left]; auto. Qed.
Lemma qmax_keep x : (0 <= x -> qmax (x + - 0) 0 = x)%Qc.
Proof. intros H. unfold qmax. destruct (qleb (x + - 0)%Qc 0%Qc) eqn:Q; [apply qleb_le in Q; qq|ring]. Qed.
Lemma qmin_keep x : (x <= 1 -> qmin (x + 0) 1 = x)%Qc.
Proof. intros H. unfold qmin. destruct (qleb (x + 0)%Qc 1%Qc) eqn:Q; [ring|apply qleb_gt in Q; qq]. Qed.
Lemma clamped w l : (0 < w -> w < qc 1 2 -> start w l ->
  qmax (w + - (1 - qc 2 1 * w)) 0 = l /\ qmax (1 - w + - (1 - qc 2 1 * w)) 0 = w /\
  qmin (w + (1 - qc 2 1 * w)) 1 = 1 - w /\ qmin (1 - w + (1 - qc 2 1 * w)) 1 = 1 - l)%Qc.
Proof.
  intros H1 H2 S. unfold qmax, qmin. repeat split;
  match goal with |- (if ?b then _ else _) = _ => destruct b eqn:Q; [apply qleb_le in Q|apply qleb_gt in Q] end;
  destruct S as [[S ->]|[S ->]]; qq.
Qed.
Ltac same := repeat lazymatch goal with
  | |- @eq (list _) (_ :: _) (_ :: _) => apply (f_equal2 (@cons _))
  | |- @eq (list _) [] [] => reflexivity
  | |- @eq spline (bez ?d _) (bez ?d _) => apply (f_equal (bez d))
  | |- @eq Qc ?x ?x => reflexivity
  | |- @eq Qc (qmax (_ + - 0) 0) _ => apply qmax_keep; assumption
  | |- @eq Qc (qmin (_ + 0) 1) _ => apply qmin_keep; assumption
  | |- @eq Qc (qmax _ _) _ => assumption
  | |- @eq Qc (qmin _ _) _ => assumption
  | |- @eq Qc _ _ => first [ring | qq]
  end.
Ltac prepare w l f H1 H2 H3 H4 S :=
  destruct (clamped w l H1 H2 S) as (C1 & C2 & C3 & C4); clear S;
  assert (0 <= w /\ 0 <= 1 - w /\ 0 <= f /\ 0 <= 1 - f /\ w <= 1 /\ 1 - w <= 1 /\ f <= 1 /\ 1 - f <= 1 /\ 0 <= 0 /\ 0 <= 1 /\ 1 <= 1)%Qc
    by (clear C1 C2 C3 C4; repeat split; qq); flat.
Lemma bottom3_of q w l f b : (0 < w -> w < qc 1 2 -> 0 < f -> f < 1 -> start w l -> cross3_bottom q w f b = bottom3 q w l f b)%Qc.
Proof.
  intros H1 H2 H3 H4 S. prepare w l f H1 H2 H3 H4 S.
  destruct q; unfold cross3_bottom, cross3d_closing_value, cross3dlin_closing_value, cross3d_z_min, cross3dlin_z_min, bottom3, wall, box, sq, at_least, at_most, shift, row_add;
  cbn [map app combine fst snd]; same.
Qed.
Lemma top3_of q w l f b : (0 < w -> w < qc 1 2 -> 0 < f -> f < 1 -> start w l -> cross3_top q w f b = top3 q w l f b)%Qc.
Proof.
  intros H1 H2 H3 H4 S. prepare w l f H1 H2 H3 H4 S.
  destruct q; unfold cross3_top, cross3d_closing_value, cross3dlin_closing_value, cross3d_z_max, cross3dlin_z_max, top3, wall, box, sq, at_least, at_most, shift, row_add;
  cbn [map app combine fst snd]; same.
Qed.
Definition plain3 (q : bool) (c x0 x1 y0 y1 z0 z1 : Qc) : tile :=
  if q then cross3d_splines (qc 1 2) c (qc 1 2 * (qc 1 2 + c))%Qc x0 x1 y0 y1 z0 z1 (repeat (qc 1 2) 3)
  else cross3dlin_splines (qc 1 2) c x0 x1 y0 y1 z0 z1 (repeat (qc 1 2) 3).
Definition strict (ce : Qc) (p : array2) : Prop := forall x, In x (concat p) -> (x < qc 1 2 /\ x * ce < qc 1 2)%Qc.
Definition mean_of (l : list Qc) : Qc := (qsum l / qc 6 1)%Qc.
Lemma mean_bounds ce a b c d e f : (ce_ok ce -> Forall (inner_r ce) [a; b; c; d; e; f] ->
  0 < ce * ((a + b + c + d + e + f) / qc 6 1) /\ ce * ((a + b + c + d + e + f) / qc 6 1) <= qc 1 2 /\
  (Forall (fun x => x * ce < qc 1 2) [a; b; c; d; e; f] -> ce * ((a + b + c + d + e + f) / qc 6 1) < qc 1 2))%Qc.
Proof.
  intros [C _] H.
  assert (Hc : (0 < ce)%Qc) by (clear -C; qq).
  assert (P : forall x, (0 < x)%Qc -> (0 < x * ce)%Qc) by (intros; now apply Qc_mul_pos).
  replace (ce * ((a + b + c + d + e + f) / qc 6 1))%Qc with ((a * ce + b * ce + c * ce + d * ce + e * ce + f * ce) * qc 1 6)%Qc
    by (unfold Qcdiv; replace (/ qc 6 1)%Qc with (qc 1 6) by (apply Qc_is_canon; reflexivity); ring).
  repeat match goal with H : Forall _ (_ :: _) |- _ => inversion H; clear H; subst end.
  unfold inner_r in *. flat.
  assert (P0 := P a ltac:(assumption)). assert (P1 := P b ltac:(assumption)). assert (P2 := P c ltac:(assumption)).
  assert (P3 := P d ltac:(assumption)). assert (P4 := P e ltac:(assumption)). assert (P5 := P f ltac:(assumption)). clear P.
  split; [|split].
  - clear - P0 P1 P2 P3 P4 P5. set (xa := (a * ce)%Qc) in *. set (xb := (b * ce)%Qc) in *. set (xc := (c * ce)%Qc) in *. set (xd := (d * ce)%Qc) in *. set (xe := (e * ce)%Qc) in *. set (xf := (f * ce)%Qc) in *. qq.
  - set (xa := (a * ce)%Qc) in *. set (xb := (b * ce)%Qc) in *. set (xc := (c * ce)%Qc) in *. set (xd := (d * ce)%Qc) in *. set (xe := (e * ce)%Qc) in *. set (xf := (f * ce)%Qc) in *.
    repeat match goal with H : (0 < ?x)%Qc |- _ => clear H end. qq.
  - intros S. repeat match goal with H : Forall _ (_ :: _) |- _ => inversion H; clear H; subst end.
    set (xa := (a * ce)%Qc) in *. set (xb := (b * ce)%Qc) in *. set (xc := (c * ce)%Qc) in *. set (xd := (d * ce)%Qc) in *. set (xe := (e * ce)%Qc) in *. set (xf := (f * ce)%Qc) in *.
    repeat match goal with H : (0 < ?x)%Qc |- _ => clear H end. repeat match goal with H : (_ <= qc 1 2)%Qc |- _ => clear H end. qq.
Qed.
Definition ok3 (x : Qc) : Prop := (0 < x /\ x <= qc 1 2)%Qc.
(** What create_tile returns; [z0] and [z1] are the thicknesses towards z. *)
Inductive cross3_kind (q : bool) (cl : option string) (bw fh : Qc) (x0 x1 y0 y1 z0 z1 c : Qc) : tile -> Prop :=
| K3Plain : cl = None -> cross3_kind q cl bw fh x0 x1 y0 y1 z0 z1 c (plain3 q c x0 x1 y0 y1 z0 z1)
| K3Bottom l : cl = Some "z_min"%string -> width_ok bw fh -> start bw l -> (z1 < qc 1 2)%Qc -> cross3_kind q cl bw fh x0 x1 y0 y1 z0 z1 c (bottom3 q bw l fh z1)
| K3Top l : cl = Some "z_max"%string -> width_ok bw fh -> start bw l -> (z0 < qc 1 2)%Qc -> cross3_kind q cl bw fh x0 x1 y0 y1 z0 z1 c (top3 q bw l fh z0).
Lemma cross3_kinds q ce cl bw fh p s T D : cross3_create q ce cl bw fh (Some p) s = Made T D ->
  exists x0 x1 y0 y1 z0 z1 c, p = [[x0]; [x1]; [y0]; [y1]; [z0]; [z1]] /\ Forall ok3 [x0; x1; y0; y1; z0; z1; c] /\
  (strict ce p -> Forall ok [x0; x1; y0; y1; z0; z1; c]) /\ cross3_kind q cl bw fh x0 x1 y0 y1 z0 z1 c T.
Proof.
  intros H. apply cross3_inv in H. destruct H as (C & (x0 & x1 & y0 & y1 & z0 & z1 & -> & B) & _ & M).
  destruct (mean_bounds ce x0 x1 y0 y1 z0 z1 C B) as (M1 & M2 & M3).
  exists x0, x1, y0, y1, z0, z1, (ce * ((x0 + x1 + y0 + y1 + z0 + z1) / qc 6 1))%Qc. split; auto. split; [|split].
  - clear M. assert (G : Forall ok3 ([x0; x1; y0; y1; z0; z1] ++ [(ce * ((x0 + x1 + y0 + y1 + z0 + z1) / qc 6 1))%Qc])); [|exact G].
    apply Forall_app. split; [|repeat constructor; auto]. eapply Forall_impl; [|exact B]. intros x (? & ? & ?). split; auto.
  - intros S. clear M. assert (G : Forall ok ([x0; x1; y0; y1; z0; z1] ++ [(ce * ((x0 + x1 + y0 + y1 + z0 + z1) / qc 6 1))%Qc])); [|exact G].
    unfold strict in S. cbn [concat app] in S.
    assert (F : Forall (fun x => x < qc 1 2 /\ x * ce < qc 1 2)%Qc [x0; x1; y0; y1; z0; z1]) by (apply Forall_forall; exact S).
    apply Forall_app. split.
    + rewrite Forall_forall in B, F |- *. intros x Hx. destruct (B x Hx) as (? & _), (F x Hx) as (? & _). split; auto.
    + repeat constructor; auto. apply M3. eapply Forall_impl; [|exact F]. cbv beta. intros x [_ X]. exact X.
  - inversion M; subst.
    + replace (cross3_value q ce [[x0]; [x1]; [y0]; [y1]; [z0]; [z1]]) with (plain3 q (ce * ((x0 + x1 + y0 + y1 + z0 + z1) / qc 6 1))%Qc x0 x1 y0 y1 z0 z1)
        by (destruct q; reflexivity). now apply K3Plain.
    + destruct (start_exists bw) as [l S]. destruct H0 as (W1 & W2 & W3 & W4). rewrite (bottom3_of q bw l fh _ W1 W2 W3 W4 S).
      apply K3Bottom; auto; [repeat split; auto|]. apply H1. cbn. tauto.
    + destruct (start_exists bw) as [l S]. destruct H0 as (W1 & W2 & W3 & W4). rewrite (top3_of q bw l fh _ W1 W2 W3 W4 S).
      apply K3Top; auto; [repeat split; auto|]. apply H1. cbn. tauto.
Qed.
Definition plain_sample (q : bool) := plain3 q (qc 1 5) (qc 1 10) (qc 1 10) (qc 1 12) (qc 1 12) (qc 1 7) (qc 1 7).
Definition bottom_sample (q : bool) (l : Qc) := bottom3 q (qc 2 5) l (qc 1 2) (qc 1 7).
Definition top_sample (q : bool) (l : Qc) := top3 q (qc 2 5) l (qc 1 2) (qc 1 7).
Ltac sides := repeat match goal with H : Forall _ (_ :: _) |- _ => inversion H; clear H; subst end; unfold ok, ok3, width_ok in *; flat.
Lemma plain3_glued q a c x0 x1 y0 y1 z0 z1 c' x0' x1' y0' y1' z0' z1' : Forall ok [x0; x1; y0; y1; z0; z1; c] -> Forall ok [x0'; x1'; y0'; y1'; z0'; z1'; c'] ->
  a < 3 -> nth a [x1; y1; z1] 0%Qc = nth a [x0'; y0'; z0'] 0%Qc -> glued 3 a (plain3 q c x0 x1 y0 y1 z0 z1) (plain3 q c' x0' x1' y0' y1' z0' z1').
Proof.
  intros H H' Ha E. assert (a = 0 \/ a = 1 \/ a = 2) as [-> | [-> | ->]] by lia; cbn [nth] in E; subst; sides; destruct q;
  [glue (plain_sample true) (plain_sample true) | glue (plain_sample false) (plain_sample false) |glue (plain_sample true) (plain_sample true) | glue (plain_sample false) (plain_sample false) |glue (plain_sample true) (plain_sample true) | glue (plain_sample false) (plain_sample false) ].
Qed.
Lemma z_glued q c x0 x1 y0 y1 z0 z1 c' x0' x1' y0' y1' z1' w l f w' l' f' :
  Forall ok [x0; x1; y0; y1; z0; z1; c] -> Forall ok [x0'; x1'; y0'; y1'; z1; z1'; c'] ->
  width_ok w f -> width_ok w' f' ->
  glued 3 2 (plain3 q c x0 x1 y0 y1 z0 z1) (top3 q w' l' f' z1) /\
  glued 3 2 (bottom3 q w l f z1) (plain3 q c' x0' x1' y0' y1' z1 z1') /\
  glued 3 2 (bottom3 q w l f z1) (top3 q w' l' f' z1).
Proof.
  intros H H' W W'. sides; destruct q; (split; [|split]).
  - glue (plain_sample true) (top_sample true 0%Qc).
  - glue (bottom_sample true 0%Qc) (plain_sample true).
  - glue (bottom_sample true 0%Qc) (top_sample true 0%Qc).
  - glue (plain_sample false) (top_sample false 0%Qc).
  - glue (bottom_sample false 0%Qc) (plain_sample false).
  - glue (bottom_sample false 0%Qc) (top_sample false 0%Qc).
Qed.
Lemma start_two w l : start w l -> (w < qc 1 2)%Qc -> l = 0%Qc \/ (0 < l /\ l < w /\ l < qc 1 2)%Qc.
Proof. intros [[_ ->]|[H ->]] W; [auto|right]. repeat split; qq. Qed.
Lemma beside3_glued q a w l f b b' : a < 2 -> width_ok w f -> start w l -> ok b -> ok b' ->
  glued 3 a (bottom3 q w l f b) (bottom3 q w l f b') /\ glued 3 a (top3 q w l f b) (top3 q w l f b').
Proof.
  intros Ha W S B B'. apply start_two in S; [|apply W]. unfold width_ok, ok in *. flat.
  assert (a = 0 \/ a = 1) as [-> | ->] by lia; destruct S as [-> | S]; flat; destruct q; split.
  - glue (bottom_sample true 0%Qc) (bottom_sample true 0%Qc).
  - glue (top_sample true 0%Qc) (top_sample true 0%Qc).
  - glue (bottom_sample false 0%Qc) (bottom_sample false 0%Qc).
  - glue (top_sample false 0%Qc) (top_sample false 0%Qc).
  - glue (bottom_sample true (qc 1 5)) (bottom_sample true (qc 1 5)).
  - glue (top_sample true (qc 1 5)) (top_sample true (qc 1 5)).
  - glue (bottom_sample false (qc 1 5)) (bottom_sample false (qc 1 5)).
  - glue (top_sample false (qc 1 5)) (top_sample false (qc 1 5)).
  - glue (bottom_sample true 0%Qc) (bottom_sample true 0%Qc).
  - glue (top_sample true 0%Qc) (top_sample true 0%Qc).
  - glue (bottom_sample false 0%Qc) (bottom_sample false 0%Qc).
  - glue (top_sample false 0%Qc) (top_sample false 0%Qc).
  - glue (bottom_sample true (qc 1 5)) (bottom_sample true (qc 1 5)).
  - glue (top_sample true (qc 1 5)) (top_sample true (qc 1 5)).
  - glue (bottom_sample false (qc 1 5)) (bottom_sample false (qc 1 5)).
  - glue (top_sample false (qc 1 5)) (top_sample false (qc 1 5)).
Qed.
Lemma start_unique w l l' : start w l -> start w l' -> l' = l.
Proof. intros [[A ->]|[A ->]] [[B ->]|[B ->]]; auto; exfalso; apply (Qclt_not_le _ _ A) || apply (Qclt_not_le _ _ B); auto. Qed.
Lemma cross3_glued q ce ce' cl cl' bw bw' fh fh' p p' s s' T T' D D' a :
  cross3_create q ce cl bw fh (Some p) s = Made T D -> cross3_create q ce' cl' bw' fh' (Some p') s' = Made T' D' -> 
  strict ce p -> strict ce' p' -> a < 3 ->
  (open_above a cl /\ open_below a cl' /\ at2 p (2 * a + 1) 0 = at2 p' (2 * a) 0) \/
  (beside 3 a cl /\ cl' = cl /\ bw' = bw /\ fh' = fh) -> glued 3 a T T'.
Proof.
  intros H H' S S' Ha C. apply cross3_kinds in H, H'.
  destruct H as (x0 & x1 & y0 & y1 & z0 & z1 & c & -> & _ & B & K). destruct H' as (x0' & x1' & y0' & y1' & z0' & z1' & c' & -> & _ & B' & K').
  specialize (B S). specialize (B' S'). clear S S'.
  destruct C as [(A & A' & E)|((b & Hb & Hn & Hc) & -> & -> & ->)].
  - assert (a = 0 \/ a = 1 \/ a = 2) as [-> | [-> | ->]] by lia; cbn [at2 nth Nat.mul Nat.add] in E; subst;
    destruct A as [-> | ->], A' as [-> | ->]; inversion K; subst; try discriminate; inversion K'; subst; try discriminate.
    + now apply plain3_glued.
    + now apply plain3_glued.
    + now apply plain3_glued.
    + eapply z_glued; eauto.
    + eapply z_glued; eauto.
    + destruct (z_glued q c x0 x1 y0 y1 z0 z0' c' x0' x1' y0' y1' z1' bw l fh bw' l0 fh') as (_ & _ & G); auto.
  - assert (b = 2) as ->.
    { assert (b = 0 \/ b = 1 \/ b = 2) as [-> | [-> | ->]] by lia; auto; destruct Hc as [-> | ->]; inversion K; discriminate. }
    assert (Z : ok z0 /\ ok z1 /\ ok z0' /\ ok z1') by (rewrite Forall_forall in B, B'; split; [|split; [|split]]; [apply B|apply B|apply B'|apply B']; cbn; tauto). flat.
    destruct Hc as [-> | ->]; inversion K; subst; try discriminate; inversion K'; subst; try discriminate.
    + assert (l0 = l) as -> by (eapply start_unique; eauto). apply (beside3_glued q a bw l fh z1 z1'); auto; lia.
    + assert (l0 = l) as -> by (eapply start_unique; eauto). apply (beside3_glued q a bw l fh z0 z0'); auto; lia.
Qed.
Lemma cross3_inside q ce cl bw fh p s T D : cross3_create q ce cl bw fh (Some p) s = Made T D -> inside_cell 3 T.
Proof.
  intros H. apply cross3_kinds in H. destruct H as (x0 & x1 & y0 & y1 & z0 & z1 & c & -> & B & _ & K).
  inversion K; subst; [|apply start_two in H1; [|apply H0]; destruct H1 as [-> | ?] .. ]; clear K; sides; destruct q;
  (apply inside_by; [all_bez|reduce_tables; facts ltac:(relevant_le; qq || reflexivity)]).
Qed.
