(** Proofs about CubeVoid and EllipsVoid. *)
From Coq Require Import String List Arith Lia ZArith QArith Qcanon Bool.
From Verif Require Import Base BaseQc S_Grid M_Grid S_Spline S_Value S_Deriv M_Core S_Integrate
  M_Tiles M_Tile2D M_Tile3D M_TileMake S_Tiles P_Tiles P_Tile2D.
Import ListNotations.
Local Open Scope list_scope.
Local Open Scope nat_scope.

(** ** CubeVoid and EllipsVoid *)
Definition strictly (v : list Qc) : Prop := exists x y z, v = [x; y; z] /\ (0 < x /\ x < 1)%Qc /\ (0 < y /\ y < 1)%Qc /\ (0 < z /\ z < 1)%Qc.
Record turning (m : libm) : Prop := {
  turning_sin : forall x, (- (1) <= sin m x /\ sin m x <= 1)%Qc;
  turning_cos : forall x, (- (1) <= cos m x /\ cos m x <= 1)%Qc }.
Definition entry (a : Qc) : Prop := (- (1) <= a /\ a <= 1)%Qc.
Lemma entry_mul a b : entry a -> entry b -> entry (a * b)%Qc.
Proof. unfold entry. intros [] []. split; qnra. Qed.
Lemma entry_opp a : entry a -> entry (- a)%Qc.
Proof. unfold entry. intros []. split; qlra. Qed.
(** Reach of the void: coordinates of the reference shape at most [k] in sum. *)
Lemma reach r1 r2 a b c x y z k : entry a -> entry b -> entry c -> (0 <= r1 -> 0 <= r2 -> - k <= x -> x <= k -> - k <= y -> y <= k -> - k <= z -> z <= k ->
  k * (r1 + r2 + r2) < qc 1 2 -> 0 < a * r1 * x + b * r2 * y + c * r2 * z + qc 1 2 /\ a * r1 * x + b * r2 * y + c * r2 * z + qc 1 2 < 1)%Qc.
Proof.
  intros A B C R1 R2. intros.
  assert (Q : forall a r x, entry a -> (0 <= r -> - k <= x -> x <= k -> - (r * k) <= a * r * x /\ a * r * x <= r * k)%Qc).
  { clear. intros a r x [A1 A2] R X1 X2. assert (0 <= k)%Qc by qlra.
    assert (E : (- k <= a * x /\ a * x <= k)%Qc) by (split; qnra). replace (a * r * x)%Qc with (r * (a * x))%Qc by ring.
    destruct E as [E1 E2]. generalize dependent (a * x)%Qc. intros. split; qnra. }
  destruct (Q a r1 x), (Q b r2 y), (Q c r2 z); auto. unfold qc in *. split; qlra.
Qed.
Lemma void_strict m pts q k : turning m -> (0 <= nth 0 q 0 -> 0 <= nth 1 q 0 -> k * (nth 0 q 0 + nth 1 q 0 + nth 1 q 0) < qc 1 2)%Qc ->
  (0 <= nth 0 q 0)%Qc -> (0 <= nth 1 q 0)%Qc ->
  Forall (fun v => exists x y z, v = [x; y; z] /\ (- k <= x /\ x <= k /\ - k <= y /\ y <= k /\ - k <= z /\ z <= k)%Qc) pts ->
  Forall strictly (shift (repeat (qc 1 2) 3) (void_points m pts q)).
Proof.
  intros [S C] K R1 R2 F. specialize (K R1 R2). unfold void_points.
  generalize dependent (nth 0 q 0%Qc). generalize dependent (nth 1 q 0%Qc). intros r2 R2 r1 K R1.
  assert (Es : forall x, entry (sin m x)) by exact S. assert (Ec : forall x, entry (cos m x)) by exact C. clear S C.
  generalize (nth 2 q 0%Qc) (nth 3 q 0%Qc). intros x y.
  unfold shift, apply_rows. rewrite map_map. apply Forall_forall. intros v Hv. apply in_map_iff in Hv. destruct Hv as (w & <- & Hw).
  rewrite Forall_forall in F. destruct (F w Hw) as (p1 & p2 & p3 & -> & B). 
  assert (E0 : entry 0%Qc) by (unfold entry; split; qlra). assert (E1 : entry 1%Qc) by (unfold entry; split; qlra).
  assert (G : forall a b c, entry a -> entry b -> entry c -> (0 < a * r1 * p1 + b * r2 * p2 + c * r2 * p3 + qc 1 2 /\ a * r1 * p1 + b * r2 * p2 + c * r2 * p3 + qc 1 2 < 1)%Qc).
  { intros. apply (reach r1 r2 a b c p1 p2 p3 k); tauto. }
  pose proof (Es x) as SX. pose proof (Es y) as SY. pose proof (Ec x) as CX. pose proof (Ec y) as CY.
  unfold rotation_y, rotation_x. generalize dependent (sin m x). generalize dependent (sin m y). generalize dependent (cos m x). generalize dependent (cos m y).
  clear - E0 E1 G. intros cy CY cx CX sy SY sx SX.
  pose proof (G cy (sy * sx)%Qc (- (sy * cx))%Qc CY (entry_mul _ _ SY SX) (entry_opp _ (entry_mul _ _ SY CX))) as G1.
  pose proof (G 0%Qc cx sx E0 CX SX) as G2.
  pose proof (G sy (- (cy * sx))%Qc (cy * cx)%Qc SY (entry_opp _ (entry_mul _ _ CY SX)) (entry_mul _ _ CY CX)) as G3.
  exists (cy * r1 * p1 + sy * sx * r2 * p2 + - (sy * cx) * r2 * p3 + qc 1 2)%Qc, (0 * r1 * p1 + cx * r2 * p2 + sx * r2 * p3 + qc 1 2)%Qc,
    (sy * r1 * p1 + - (cy * sx) * r2 * p2 + cy * cx * r2 * p3 + qc 1 2)%Qc.
  split; [|tauto]. clear. generalize (qc 1 2). intros h. cbn [repeat]. lazy -[Qcplus Qcmult Qcopp Qcminus Q2Qc]. repeat (f_equal; try ring).
Qed.
Lemma shift_length v pts : length (shift v pts) = length pts.
Proof. apply map_length. Qed.
Lemma void_points_length m pts q : length (void_points m pts q) = length pts.
Proof. apply map_length. Qed.
Definition half_box (k : Qc) (v : list Qc) : Prop :=
  exists x y z, v = [x; y; z] /\ (- k <= x /\ x <= k /\ - k <= y /\ y <= k /\ - k <= z /\ z <= k)%Qc.
Lemma cube_half : Forall (half_box (qc 1 2)) cube_points.
Proof. unfold cube_points. repeat constructor; do 3 eexists; (split; [reflexivity|]); unfold qc; repeat split; qlra. Qed.
Lemma sphere_half m : (1 <= sqrt m (qc 3 1) -> sqrt m (qc 3 1) <= qc 2 1)%Qc -> (1 <= sqrt m (qc 3 1))%Qc -> Forall (half_box 1%Qc) (sphere_points m).
Proof.
  intros A B. specialize (A B). unfold sphere_points. cbv zeta. generalize dependent (sqrt m (qc 3 1)). intros s S2 S1.
  assert (C : (0 <= qc 1 2 / s /\ qc 1 2 / s <= 1)%Qc).
  { assert (0 < s)%Qc by qlra. split; [apply Qc_div_nonneg; unfold qc; qlra|]. apply Qc_div_le; [auto|]. unfold qc. qlra. }
  assert (A1 : (0 <= s / qc 2 1 * qc 1 2 /\ s / qc 2 1 * qc 1 2 <= qc 1 2)%Qc).
  { replace (s / qc 2 1 * qc 1 2)%Qc with (s * (/ qc 2 1 * qc 1 2))%Qc by (unfold Qcdiv; ring).
    replace (/ qc 2 1 * qc 1 2)%Qc with (qc 1 4) by (apply Qc_is_canon; reflexivity). unfold qc in *. split; qlra. }
  generalize dependent (qc 1 2 / s)%Qc. generalize dependent (s / qc 2 1 * qc 1 2)%Qc. clear. intros a [A1 A2] c [C1 C2].
  repeat constructor; do 3 eexists; (split; [reflexivity|]); unfold qc in *; repeat split; qlra.
Qed.
Definition cube_sample : tile := cube_void_splines 0%Qc 1%Qc
  [[qc 1 4; qc 1 4; qc 1 4]; [qc 3 4; qc 1 4; qc 1 4]; [qc 1 4; qc 3 4; qc 1 4]; [qc 3 4; qc 3 4; qc 1 4];
   [qc 1 4; qc 1 4; qc 3 4]; [qc 3 4; qc 1 4; qc 3 4]; [qc 1 4; qc 3 4; qc 3 4]; [qc 3 4; qc 3 4; qc 3 4]].
Lemma strictly_apart v : strictly v -> exists x y z, v = [x; y; z] /\ (x <> 0 /\ x <> 1 /\ y <> 0 /\ y <> 1 /\ z <> 0 /\ z <> 1)%Qc.
Proof.
  intros (x & y & z & -> & X & Y & Z). exists x, y, z. split; auto.
  repeat split; intros ->; flat; qlra.
Qed.
Ltac separate := repeat match goal with
  | H : Forall strictly (_ :: _) |- _ => inversion H as [|? ? ?S ?F]; clear H; subst
  | H : strictly ?v |- _ => apply strictly_apart in H; destruct H as (? & ? & ? & -> & ? & ? & ? & ? & ? & ?)
  | H : Forall strictly [] |- _ => clear H
  end.
Lemma cube_parts_glued A B a : length A = 8 -> length B = 8 -> Forall strictly A -> Forall strictly B -> a < 3 ->
  glued 3 a (cube_void_splines 0%Qc 1%Qc A) (cube_void_splines 0%Qc 1%Qc B).
Proof.
  intros LA LB FA FB Ha. do 9 (destruct A as [|? A]; try discriminate LA). do 9 (destruct B as [|? B]; try discriminate LB). clear LA LB.
  separate. assert (a = 0 \/ a = 1 \/ a = 2) as [-> | [-> | ->]] by lia; glue cube_sample cube_sample.
Qed.
Definition ball_sample : tile := ellips_splines 0%Qc (qc 1 2) 1%Qc
  (shift (repeat (qc 1 2) 3) (apply_rows (diag3 (qc 1 3) (qc 1 3) (qc 1 3)) (sphere_points (Libm 1 (fun _ => 0%Qc) (fun _ => 1%Qc) (fun _ => qc 26 15))))).
Lemma ball_parts_glued A B a : length A = 27 -> length B = 27 -> Forall strictly A -> Forall strictly B -> a < 3 ->
  glued 3 a (ellips_splines 0%Qc (qc 1 2) 1%Qc A) (ellips_splines 0%Qc (qc 1 2) 1%Qc B).
Proof.
  intros LA LB FA FB Ha. do 28 (destruct A as [|? A]; try discriminate LA). do 28 (destruct B as [|? B]; try discriminate LB). clear LA LB.
  separate. assert (a = 0 \/ a = 1 \/ a = 2) as [-> | [-> | ->]] by lia; glue ball_sample ball_sample.
Qed.
Ltac contain := repeat match goal with
  | H : Forall strictly (_ :: _) |- _ => inversion H as [|? ? ?S ?F]; clear H; subst
  | H : strictly ?v |- _ => destruct H as (? & ? & ? & -> & [? ?] & [? ?] & [? ?])
  | H : Forall strictly [] |- _ => clear H
  end.
Lemma cube_parts_inside A : length A = 8 -> Forall strictly A -> inside_cell 3 (cube_void_splines 0%Qc 1%Qc A).
Proof.
  intros LA FA. do 9 (destruct A as [|? A]; try discriminate LA). clear LA. contain. place.
Qed.
Lemma ball_parts_inside A : length A = 27 -> Forall strictly A -> inside_cell 3 (ellips_splines 0%Qc (qc 1 2) 1%Qc A).
Proof.
  intros LA FA. do 28 (destruct A as [|? A]; try discriminate LA). clear LA. contain. place.
Qed.
Lemma void_inv m pts f p s T D : void_create m pts f (Some p) s = Made T D -> length (concat p) = 4 /\
  T = f 0%Qc (qc 1 2) 1%Qc (shift (repeat (qc 1 2) 3) (void_points m pts (concat p))) /\
  D = option_map (fun d => map (fun i =>
              f 0%Qc 0%Qc 0%Qc (shift (repeat 0%Qc 3) (void_derivs m pts (concat p) (nth 0 (slice d i) []))))
              (seq 0 (n_derivatives d))) s /\ (forall s', s = Some s' -> exists b, check_param_derivatives 1 4 (Some s') = Some b).
Proof.
  unfold void_create. intros H. destruct (Nat.eqb_spec (length (concat p)) 4); [|discriminate H]. cbn [negb] in H.
  destruct (check_param_derivatives 1 4 s) eqn:C; [|discriminate H]. cbn [bind_derivatives] in H. inversion H.
  repeat split; auto. intros s' ->. eauto.
Qed.
(** Reach of the void from the middle of the cell: half widths times [k]. *)
Definition fits_in (k : Qc) (p : array2) : Prop :=
  (0 <= nth 0 (concat p) 0 /\ 0 <= nth 1 (concat p) 0 /\ k * (nth 0 (concat p) 0 + nth 1 (concat p) 0 + nth 1 (concat p) 0) < qc 1 2)%Qc.
Definition root_three (m : libm) : Prop := (1 <= sqrt m (qc 3 1) /\ sqrt m (qc 3 1) <= qc 2 1)%Qc.
Lemma fits_strict m pts p k : turning m -> fits_in k p -> Forall (half_box k) pts ->
  Forall strictly (shift (repeat (qc 1 2) 3) (void_points m pts (concat p))).
Proof. intros L (A & B & C) F. apply (void_strict m pts (concat p) k); auto. Qed.
Lemma cube_void_glued m m' p p' s s' T T' D D' a : cube_void_create m (Some p) s = Made T D -> cube_void_create m' (Some p') s' = Made T' D' ->
  turning m -> turning m' -> fits_in (qc 1 2) p -> fits_in (qc 1 2) p' -> a < 3 -> glued 3 a T T'.
Proof.
  intros H H' L L' F F' Ha. apply void_inv in H, H'. destruct H as (_ & -> & _), H' as (_ & -> & _). 
  apply cube_parts_glued; auto; try (rewrite shift_length, void_points_length; reflexivity);
    eapply fits_strict; eauto; apply cube_half.
Qed.
Lemma ball_glued m m' p p' s s' T T' D D' a : ellips_create m (Some p) s = Made T D -> ellips_create m' (Some p') s' = Made T' D' ->
  turning m -> turning m' -> root_three m -> root_three m' -> fits_in 1%Qc p -> fits_in 1%Qc p' -> a < 3 -> glued 3 a T T'.
Proof.
  intros H H' L L' [R1 R2] [R1' R2'] F F' Ha. apply void_inv in H, H'. destruct H as (_ & -> & _), H' as (_ & -> & _). 
  apply ball_parts_glued; auto; try (rewrite shift_length, void_points_length; reflexivity);
    eapply fits_strict; eauto; apply sphere_half; auto.
Qed.
Lemma cube_void_inside m p s T D : cube_void_create m (Some p) s = Made T D -> turning m -> fits_in (qc 1 2) p -> inside_cell 3 T.
Proof.
  intros H L F. apply void_inv in H. destruct H as (_ & -> & _). apply cube_parts_inside; auto. 
  eapply fits_strict; eauto. apply cube_half.
Qed.
Lemma ball_inside m p s T D : ellips_create m (Some p) s = Made T D -> turning m -> root_three m -> fits_in 1%Qc p -> inside_cell 3 T.
Proof.
  intros H L [R1 R2] F. apply void_inv in H. destruct H as (_ & -> & _). apply ball_parts_inside; auto. 
  eapply fits_strict; eauto. apply sphere_half; auto.
Qed.
