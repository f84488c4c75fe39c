(** Proofs about Snappy and Chi. *)
From Coq Require Import String List Arith Lia ZArith QArith Qcanon Bool.
From Verif Require Import Base BaseQc S_Grid M_Grid S_Spline S_Value S_Deriv M_Core S_Integrate
  M_Tiles M_Tile2D M_Tile3D M_TileMake S_Tiles P_Tiles P_Tile2D.
Import ListNotations.
Local Open Scope list_scope.
Local Open Scope nat_scope.

(** ** Snappy *)
Definition snap (cl a b r : Qc) : tile := snappy_splines 0%Qc (qc 1 2) 1%Qc (cl * qc 1 2)%Qc (1 - cl * qc 1 2)%Qc a (1 - a)%Qc b r.
Lemma snappy_inv cl a b c r n p s T D : snappy_create cl a b c r n p s = Made T D ->
  n = None /\ p = None /\ s = None /\ (0 < cl /\ cl < qc 49 100 /\ 0 <= a /\ a < qc 1 2 /\ 0 <= b /\ 0 <= r /\ r < qc 1 2 /\ r + cl < qc 1 2)%Qc /\ T = snap cl a b r.
Proof.
  unfold snappy_create. intros H. guards H. subst.
  apply orb_false_iff in Heqb3. destruct Heqb3 as [C1 C2]. apply negb_false_iff in C1. apply qltb_ge in C2. orders.
  rewrite forallb_forall in Heqb0. assert (N : forall x, In x [a; b; c; r; cl] -> (0 <= x)%Qc) by (intros; apply qleb_le; auto).
  assert (Na := N a ltac:(cbn; auto)). assert (Nb := N b ltac:(cbn; auto)). assert (Nr := N r ltac:(cbn; auto)).
  repeat (split; [reflexivity|]). inversion H. split; [|reflexivity]. clear - Na Nb Nr C1 C2 H0 H1 Heqb2. repeat split; auto; qq.
Qed.
Definition snap_sample : tile := snap (qc 1 10) (qc 1 10) (qc 1 5) (qc 3 20).
Lemma snappy_kind cl a b c r n p s T D : snappy_create cl a b c r n p s = Made T D -> 
  exists k, k = (cl * qc 1 2)%Qc /\ (0 < k /\ k < qc 1 4 /\ 0 <= r /\ r + k + k < qc 1 2 /\ 0 <= a /\ a < qc 1 2 /\ 0 <= b)%Qc /\
  T = snappy_splines 0%Qc (qc 1 2) 1%Qc k (1 - k)%Qc a (1 - a)%Qc b r.
Proof.
  intros H. apply snappy_inv in H. destruct H as (_ & _ & _ & R & ->). exists (cl * qc 1 2)%Qc. split; auto. split; auto.
  clear - R. flat. repeat split; auto; qq.
Qed.
Ltac arith_all := idtac; lazymatch goal with
  | |- @eq Qc _ _ => first [ring | qq]
  | |- @eq _ _ _ => reflexivity
  | |- ~ _ => intro; qq
  | |- _ => qq
  end.
Lemma snappy_glued_y cl a b c r a' b' c' r' n p s T D n' p' s' T' D' :
  snappy_create cl a b c r n p s = Made T D -> snappy_create cl a' b' c' r' n' p' s' = Made T' D' ->
  (0 < a -> 0 < b -> b < qc 1 2 -> 0 < a' -> 0 < b' -> b' < qc 1 2 -> glued 2 1 T T')%Qc.
Proof.
  intros H H' Ha Hb Hb2 Ha' Hb' Hb2'. apply snappy_kind in H, H'. destruct H as (k & E & R & ->), H' as (k' & E' & R' & ->).
  assert (k' = k) as -> by congruence. clear E E'. flat. 
  match goal with |- glued ?dim ?a _ _ =>
    let tf := eval vm_compute in (ftable dim a snap_sample snap_sample) in
    let tb := eval vm_compute in (btable dim a snap_sample snap_sample) in
    apply (glued_by_tables dim a _ _ tf tb); [lia|all_bez|all_bez|reduce_tables; facts ltac:(arith_all)|reduce_tables; facts ltac:(arith_all)]
  end.
Qed.
Lemma snappy_glued_x cl cl' a b c r c' r' n p s T D n' p' s' T' D' :
  snappy_create cl a b c r n p s = Made T D -> snappy_create cl' a b c' r' n' p' s' = Made T' D' ->
  (0 < a -> 0 < b -> b < qc 1 2 -> glued 2 0 T T')%Qc.
Proof.
  intros H H' Ha Hb Hb2. apply snappy_kind in H, H'. destruct H as (k & E & R & ->), H' as (k' & E' & R' & ->).
  clear E E'. flat. 
  match goal with |- glued ?dim ?a _ _ =>
    let tf := eval vm_compute in (ftable dim a snap_sample snap_sample) in
    let tb := eval vm_compute in (btable dim a snap_sample snap_sample) in
    apply (glued_by_tables dim a _ _ tf tb); [lia|all_bez|all_bez|reduce_tables; facts ltac:(arith_all)|reduce_tables; facts ltac:(arith_all)]
  end.
Qed.
Lemma snappy_inside cl a b c r n p s T D : snappy_create cl a b c r n p s = Made T D -> (b <= qc 1 2)%Qc -> inside_cell 2 T.
Proof.
  intros H Hb. apply snappy_kind in H. destruct H as (k & E & R & ->). clear E. flat.
  apply inside_by; [all_bez|]. reduce_tables. facts ltac:(arith_all).
Qed.
(** The cubic patches: their first coordinate runs along k, k + r, m - r, m. *)
Lemma cubic_mean (x0 x1 x2 x3 y0 y1 y2 y3 y4 y5 y6 y7 t v : Qc) :
  edge_mean [3;1] [[x0;y0];[x1;y1];[x2;y2];[x3;y3];[x0;y4];[x1;y5];[x2;y6];[x3;y7]] [t;v] 0 0 =
  ((1-t)*(1-t)*(x1-x0) + (1+1)*t*(1-t)*(x2-x1) + t*t*(x3-x2))%Qc.
Proof.
  unfold edge_mean. lazy -[Qcplus Qcmult Qcopp Qcminus Qcdiv Qcinv Q2Qc qc inj qpow].
  cbn [qpow]. rewrite !inj_S, inj_0. ring.
Qed.
Lemma cubic_right (x0 x1 x2 x3 y0 y1 y2 y3 y4 y5 y6 y7 b : Qc) u J :
  (x1 - x0 = x3 - x2 -> 0 <= x1 - x0 -> 0 < x2 - x0 -> 0 < b -> y4 = y0 + b -> y5 = y1 + b -> y6 = y2 + b -> y7 = y3 + b ->
  Forall (fun x => 0 < x /\ x < 1) u -> length u = 2%nat ->
  jacobian (bez [3%nat; 1%nat] [[x0;y0];[x1;y1];[x2;y2];[x3;y3];[x0;y4];[x1;y5];[x2;y6];[x3;y7]]) u J -> 0 < det 2 J)%Qc.
Proof.
  intros E N P Hb -> -> -> -> Bu Lu H.
  assert (Sm : small [3; 1]) by (repeat constructor; lia).
  pose proof (fun Ld Dc => jacobian_means _ _ u J 2 Ld Sm Dc Lu Bu H) as X. destruct (X eq_refl eq_refl) as [M I]. clear X.
  assert (A : (0 < J 0%nat 0%nat)%Qc).
  { rewrite M by lia. apply Qc_mul_pos; [apply (I 0); lia|]. clear M I H.
    destruct u as [|t [|v [|? ?]]]; try discriminate Lu. rewrite cubic_mean. inversion Bu as [|? ? [B1 B2] Bv]. subst. clear - E N P B1 B2.
    rewrite <- E. set (e := (x1 - x0)%Qc) in *.
    replace (_ + _)%Qc with (e * ((1 - t - t) * (1 - t - t)) + (t * (1 - t)) * ((x2 - x0) + (x2 - x0)))%Qc by (unfold e; ring).
    assert (Q1 : (0 <= e * ((1 - t - t) * (1 - t - t)))%Qc) by (apply Qc_mul_nonneg; [auto|]; clear; generalize (1 - t - t)%Qc; intros w; qnra).
    assert (Q2 : (0 < (t * (1 - t)) * ((x2 - x0) + (x2 - x0)))%Qc).
    { apply Qc_mul_pos; [apply Qc_mul_pos; [auto|qlra]|]. clear - P. qlra. }
    clear - Q1 Q2. set (p := (e * _)%Qc) in *. set (q := (_ * (_ + _))%Qc) in *. qlra. }
  assert (Z : J 0 1 = 0%Qc).
  { rewrite M by lia. unfold edge_mean. rewrite mean_zero; [ring|auto|cbn;lia|].
    lazy -[Qcplus Qcmult Qcopp Qcminus Qcdiv Qcinv Q2Qc qc]. repeat constructor; ring. }
  assert (C : (0 < J 1%nat 1%nat)%Qc).
  { rewrite M by lia. apply Qc_mul_pos; [apply (I 1); lia|]. unfold edge_mean. apply mean_pos; [auto|cbn;lia|now apply box_weak|].
    lazy -[Qcplus Qcmult Qcopp Qcminus Qcdiv Qcinv Q2Qc qc Qclt]. repeat constructor; ring_simplify; exact Hb. }
  replace (det 2 J) with (J 0%nat 0%nat * J 1%nat 1%nat - J 0%nat 1%nat * J 1%nat 0%nat)%Qc
    by (lazy -[Qcplus Qcmult Qcopp Qcminus Q2Qc]; ring).
  rewrite Z. replace (_ - _)%Qc with (J 0%nat 0%nat * J 1%nat 1%nat)%Qc by ring. now apply Qc_mul_pos.
Qed.
Lemma right_handed_app A B : right_handed A -> right_handed B -> right_handed (A ++ B).
Proof. intros HA HB p u J Hp. apply in_app_iff in Hp. destruct Hp; [apply HA|apply HB]; auto. Qed.
Lemma snappy_right cl a b c r n p s T D : snappy_create cl a b c r n p s = Made T D -> (0 < a -> 0 < b -> right_handed T)%Qc.
Proof.
  intros H Ha Hb. apply snappy_kind in H. destruct H as (k & E & R & ->). clear E. flat.
  rewrite <- (firstn_skipn 6 (snappy_splines _ _ _ _ _ _ _ _ _)). apply right_handed_app.
  - apply (right_handed_by 2 _ (repeat (Aligned 0) 6)); [all_bez|reduce_tables; facts ltac:(arith_all)].
  - cbn [snappy_splines skipn]. intros q u J Hq Bu Lu HJ.
    destruct Hq as [<-|[<-|[<-|[<-|[]]]]].
    + eapply (cubic_right _ _ _ _ _ _ _ _ _ _ _ _ b); [..|exact Bu|exact Lu|exact HJ]; arith_all.
    + eapply (cubic_right _ _ _ _ _ _ _ _ _ _ _ _ b); [..|exact Bu|exact Lu|exact HJ]; arith_all.
    + eapply (cubic_right _ _ _ _ _ _ _ _ _ _ _ _ a); [..|exact Bu|exact Lu|exact HJ]; arith_all.
    + eapply (cubic_right _ _ _ _ _ _ _ _ _ _ _ _ a); [..|exact Bu|exact Lu|exact HJ]; arith_all.
Qed.

(** ** Chi *)
Record libm_bounds (m : libm) : Prop := {
  sin_bounds : forall x, (- (1) <= sin m x /\ sin m x <= 1)%Qc;
  cos_bounds : forall x, (- (1) <= cos m x /\ cos m x <= 1)%Qc;
  root_eighth : (0 <= sqrt m (qc 1 8) /\ sqrt m (qc 1 8) <= qc 1 2)%Qc }.
Lemma chi_inv m p s T D : chi_create m (Some p) s = Made T D -> exists s c x, T = chi_splines 0%Qc (qc 1 2) s c /\
  s = (sqrt m (qc 1 8) * sin m x)%Qc /\ c = (sqrt m (qc 1 8) * cos m x)%Qc.
Proof. unfold chi_create. intros H. cbv zeta in H. guards H. unfold loop in H. inversion H. unfold chi_value. eauto 8. Qed.
Definition chi_sample : tile := chi_splines 0%Qc (qc 1 2) (qc 1 3) (qc 1 4).
Lemma chi_glued m m' p s p' s' T T' D D' a : chi_create m (Some p) s = Made T D -> chi_create m' (Some p') s' = Made T' D' -> a < 2 -> glued 2 a T T'.
Proof.
  intros H H' Ha. apply chi_inv in H, H'. destruct H as (x & y & ? & -> & _), H' as (x' & y' & ? & -> & _).
  assert (a = 0 \/ a = 1) as [-> | ->] by lia; glue chi_sample chi_sample.
Qed.
Lemma in_scaled r x : (0 <= r -> r <= qc 1 2 -> - (1) <= x -> x <= 1 -> - qc 1 2 <= r * x /\ r * x <= qc 1 2)%Qc.
Proof. intros. unfold qc in *. split; qnra. Qed.
Lemma chi_inside m p s T D : libm_bounds m -> chi_create m (Some p) s = Made T D -> inside_cell 2 T.
Proof.
  intros [S C [R1 R2]] H. apply chi_inv in H. destruct H as (x & y & z & -> & Ex & Ey).
  destruct (S z), (C z). destruct (in_scaled _ (sin m z) R1 R2) as [X1 X2]; auto. destruct (in_scaled _ (cos m z) R1 R2) as [Y1 Y2]; auto.
  rewrite <- Ex in X1, X2. rewrite <- Ey in Y1, Y2. clear - X1 X2 Y1 Y2. apply inside_by; [all_bez|]. reduce_tables. facts ltac:(arith_all).
Qed.
