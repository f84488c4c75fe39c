(** Rates of the voids turned about the x axis. *)
From Coq Require Import String List Arith Lia ZArith QArith Qcanon Bool.
From Verif Require Import Base BaseQc S_Grid M_Grid S_Spline S_Value S_Deriv M_Core S_Integrate P_Value P_Deriv
  M_Tiles M_Tile2D M_Tile3D M_TileMake S_Tiles P_Tiles P_Tile2D P_TileSnappy P_TileOctagon P_TileCross3 P_TileWall P_Tile3D P_TileVoid P_TileNot S_TileTurn.
Import ListNotations.
Local Open Scope list_scope.
Local Open Scope nat_scope.

(** ** Derivatives *)
Lemma abs_between x e : (qabs x <= e)%Qc <-> (- e <= x /\ x <= e)%Qc.
Proof.
  destruct (Qclt_le_dec x 0) as [C|C].
  - rewrite qabs_neg_eq by now apply Qclt_le_weak. split; [intros H; split; qlra|intros [H1 H2]; qlra].
  - rewrite qabs_pos_eq by auto. split; [intros H; split; qlra|intros [H1 H2]; auto].
Qed.
Lemma deriv_der f x g : is_deriv f x g -> der f x g.
Proof.
  intros H. exists (fun y => if Qc_eq_dec y x then g else ((f y - f x) / (y - x))%Qc), 1%Qc.
  split; [reflexivity|]. split; [|split].
  - intros e He. destruct (H e He) as (r & Hr & K). exists r. split; auto. intros y Hy.
    destruct (Qc_eq_dec x x) as [_|C]; [|easy]. destruct (Qc_eq_dec y x) as [->|N].
    + replace (g - g)%Qc with 0%Qc by ring. change (qabs 0) with 0%Qc. now apply Qclt_le_weak.
    + specialize (K y Hy). assert (D : (y - x)%Qc <> 0%Qc) by (intros C; apply N; replace y with (y - x + x)%Qc by ring; rewrite C; ring).
      assert (P : (0 < qabs (y - x))%Qc) by now apply qabs_gt_0.
      replace (f y - f x - g * (y - x))%Qc with (((f y - f x) / (y - x) - g) * (y - x))%Qc in K by (field; exact D).
      rewrite qabs_mul in K. apply Qcnot_lt_le. intros C. apply (Qcle_not_lt _ _ K). now apply Qcmult_lt_compat_r.
  - destruct (Qc_eq_dec x x) as [_|C]; [reflexivity|easy].
  - intros y _. destruct (Qc_eq_dec y x) as [->|N]; [ring|]. field.
    intros C; apply N; replace y with (y - x + x)%Qc by ring; rewrite C; ring.
Qed.
Lemma shrink r d : (0 < r)%Qc -> exists r', (0 < r')%Qc /\ forall t, (qabs t < r')%Qc -> (qabs (t * d) < r)%Qc.
Proof.
  intros Hr. pose proof (qabs_nonneg d) as Hd. assert (P : (0 < qabs d + 1)%Qc) by (clear - Hd; qlra).
  exists (r * / (qabs d + 1))%Qc. split; [apply Qc_mul_pos; auto; now apply Qc_inv_pos|].
  intros t Ht. rewrite qabs_mul. apply Qcle_lt_trans with (qabs t * (qabs d + 1))%Qc.
  - pose proof (qabs_nonneg t) as H. clear - H. generalize dependent (qabs t). generalize (qabs d). intros a b H. 
    replace (b * (a + 1))%Qc with (b * a + b)%Qc by ring. qlra.
  - set (q := (qabs d + 1)%Qc) in *. clearbody q. assert (E : (r * / q * q = r)%Qc) by (field; intros C; rewrite C in P; discriminate P).
    rewrite <- E. now apply Qcmult_lt_compat_r.
Qed.
Lemma der_shift f x g d : der f x g -> der (fun t => f (x + t * d)%Qc) 0%Qc (d * g)%Qc.
Proof.
  intros (phi & r & Hr & C & E & K). destruct (shrink r d Hr) as (r' & Hr' & B).
  exists (fun t => (d * phi (x + t * d))%Qc), r'. split; auto. split; [|split].
  - intros e He. assert (P : (0 < qabs d + 1)%Qc) by (pose proof (qabs_nonneg d) as Hd; clear - Hd; qlra).
    destruct (C (e * / (qabs d + 1))%Qc) as (r2 & Hr2 & K2); [apply Qc_mul_pos; auto; now apply Qc_inv_pos|].
    destruct (shrink r2 d Hr2) as (r3 & Hr3 & B3). exists r3. split; auto. intros t Ht.
    replace (t - 0)%Qc with t in Ht by ring. specialize (K2 (x + t * d)%Qc). replace (x + t * d - x)%Qc with (t * d)%Qc in K2 by ring.
    specialize (K2 (B3 t Ht)). replace (x + 0 * d)%Qc with x by ring.
    replace (d * phi (x + t * d) - d * phi x)%Qc with (d * (phi (x + t * d) - phi x))%Qc by ring. rewrite qabs_mul.
    apply Qcle_trans with ((qabs d + 1) * (e * / (qabs d + 1)))%Qc.
    + generalize dependent (qabs (phi (x + t * d) - phi x))%Qc. intros q K2.
      apply Qcle_trans with (qabs d * (e * / (qabs d + 1)))%Qc.
      * rewrite !(Qcmult_comm (qabs d)). apply Qcmult_le_compat_r; auto. apply qabs_nonneg.
      * apply Qcmult_le_compat_r; [clear; generalize (qabs d); intros; qlra|]. apply Qclt_le_weak, Qc_mul_pos; auto. now apply Qc_inv_pos.
    + set (q := (qabs d + 1)%Qc) in *. clearbody q. assert (Z : (q * (e * / q) = e)%Qc) by (field; intros Z; rewrite Z in P; discriminate P).
      rewrite Z. apply Qcle_refl.
  - replace (x + 0 * d)%Qc with x by ring. now rewrite E.
  - intros t Ht. replace (t - 0)%Qc with t in * by ring. replace (x + 0 * d)%Qc with x by ring.
    specialize (K (x + t * d)%Qc). replace (x + t * d - x)%Qc with (t * d)%Qc in K by ring. rewrite (K (B t Ht)). ring.
Qed.
Lemma der_opp f x g : der f x g -> der (fun t => - f t)%Qc x (- g)%Qc.
Proof.
  intros H. apply (der_eq _ _ (- (1) * g)%Qc); [ring|]. eapply der_ext with (r := 1%Qc); [reflexivity| |apply (der_scale (- (1))%Qc), H].
  intros y _. cbv beta. ring.
Qed.
Lemma small_rest f g : der f 0%Qc g -> forall e, (0 < e)%Qc -> exists r, (0 < r)%Qc /\ forall t, (qabs t < r)%Qc ->
  (- (e * qabs t) <= f t - f 0 - t * g /\ f t - f 0 - t * g <= e * qabs t)%Qc.
Proof.
  intros H e He. destruct (der_is_deriv _ _ _ H e He) as (r & Hr & K). exists r. split; auto. intros t Ht.
  specialize (K t). replace (t - 0)%Qc with t in K by ring. specialize (K Ht).
  apply abs_between in K. replace (f t - f 0 - t * g)%Qc with (f t - f 0 - g * t)%Qc by ring. exact K.
Qed.
Lemma all_small n (P : nat -> Qc -> Prop) :
  (forall k, k < n -> exists r, (0 < r)%Qc /\ forall t, (qabs t < r)%Qc -> P k t) ->
  exists r, (0 < r)%Qc /\ forall k t, k < n -> (qabs t < r)%Qc -> P k t.
Proof.
  induction n as [|n IH]; intros H; [exists 1%Qc; split; [reflexivity|lia]|].
  destruct IH as (r1 & H1 & K1); [intros k Hk; apply H; lia|]. destruct (H n (Nat.lt_succ_diag_r n)) as (r2 & H2 & K2).
  destruct (two_radii _ _ H1 H2) as (r & Hr & L1 & L2). exists r. split; auto. intros k t Hk Ht.
  destruct (Nat.eq_dec k n) as [->|N]; [apply K2; now apply Qclt_le_trans with r|]. apply K1; [lia|]. now apply Qclt_le_trans with r.
Qed.

(** ** Values of tiles that differ *)
Lemma moves_value dim t T D T' k u c : Forall is_bez T -> Forall is_bez D -> Forall is_bez T' -> moves_all dim t T D T' ->
  k < length T -> in_box (para_dim (nth k T none)) u -> c < dim ->
  sp_value (nth k T' none) u c = (sp_value (nth k T none) u c + t * sp_value (nth k D none) u c)%Qc.
Proof.
  intros BT BD BT' M Hk Hu Hc. destruct (moves_all_nth _ _ _ _ _ M) as (L & L' & G).
  destruct (G k Hk) as (E & R). rewrite para_dim_degs in Hu.
  apply andb_true_iff in E. destruct E as [E1 E2]. apply same_list_eq in E1, E2.
  rewrite Forall_forall in BT, BD, BT'.
  rewrite (BT (nth k T none)), (BD (nth k D none)), (BT' (nth k T' none)) by (apply nth_In; lia).
  rewrite E1, E2. apply bez_affine; [apply Hu|].
  intros g Hg. apply all_of_Forall in R. rewrite Forall_forall in R. specialize (R g ltac:(apply in_seq; lia)). cbv beta in R.
  apply all_of_Forall in R. rewrite Forall_forall in R. apply R. apply in_seq. lia.
Qed.
Lemma moves_dims dim t T D T' k : moves_all dim t T D T' -> k < length T -> para_dim (nth k D none) = para_dim (nth k T none) /\ para_dim (nth k T' none) = para_dim (nth k T none).
Proof.
  intros M Hk. destruct (moves_all_nth _ _ _ _ _ M) as (L & L' & G). destruct (G k Hk) as (E & R).
  apply andb_true_iff in E. destruct E as [E1 E2]. apply same_list_eq in E1, E2. rewrite !para_dim_degs. now rewrite E1, E2.
Qed.

(** All entries within [dl] of zero. *)
Definition tiny (dl : Qc) (p : spline) : Prop :=
  length (sp_cps p) = netn (degs_of p) /\ all_of (fun v => all_of (fun c => (- dl <= nth c v 0 /\ nth c v 0 <= dl)%Qc) [0; 1; 2]) (sp_cps p).
Lemma tiny_value dl p u c : is_bez p -> tiny dl p -> in_box (para_dim p) u -> c < 3 -> (- dl <= sp_value p u c /\ sp_value p u c <= dl)%Qc.
Proof.
  intros B [L F] U C. rewrite B. apply bez_between; auto; [now rewrite para_dim_degs in U|].
  apply all_of_Forall in F. rewrite Forall_forall in F |- *. intros v Hv. specialize (F v Hv). apply all_of_Forall in F.
  rewrite Forall_forall in F. apply F. cbn [In]. lia.
Qed.

Lemma Forall_all_of {A} (P : A -> Prop) l : Forall P l -> all_of P l.
Proof. induction 1; cbn; auto. Qed.
Ltac steps C S := lazymatch goal with
  | |- der (fun _ => ?c) _ _ => exact (der_const c _)
  | |- der (fun t => t) _ _ => exact (der_id _)
  | |- der (fun t => Qcplus (@?f t) (@?g t)) _ _ => refine (der_add f g _ _ _ _ _); steps C S
  | |- der (fun t => Qcminus (@?f t) (@?g t)) _ _ => refine (der_sub f g _ _ _ _ _); steps C S
  | |- der (fun t => Qcmult (@?f t) (@?g t)) _ _ => refine (der_mul f g _ _ _ _ _); steps C S
  | |- _ => first [exact C | exact S]
  end.
Lemma void_turned m pts f p s T Ds : Forall (fun v => exists x y z, v = [x; y; z]) pts ->
  (forall v0 v1 v2 A, Forall is_bez (f v0 v1 v2 A)) -> (forall A B, length (f 0 0 0 A)%Qc = length (f 0 (qc 1 2) 1 B)%Qc) ->
  (forall t A B C, length A = length pts -> length B = length pts -> length C = length pts ->
     all_of (fun k => exists x y z x' y' z', nth k A [] = [x; y; z] /\ nth k B [] = [x'; y'; z'] /\ nth k C [] = [x + t * x'; y + t * y'; z + t * z']%Qc) (seq 0 (length pts)) ->
     moves_all 3 t (f 0 (qc 1 2) 1 A)%Qc (f 0 0 0 B)%Qc (f 0 (qc 1 2) 1 C)%Qc) ->
  (forall dl A, length A = length pts -> (- dl <= 0 /\ 0 <= dl)%Qc ->
     all_of (fun k => exists x y z, nth k A [] = [x; y; z] /\ (- dl <= x /\ x <= dl)%Qc /\ (- dl <= y /\ y <= dl)%Qc /\ (- dl <= z /\ z <= dl)%Qc) (seq 0 (length pts)) ->
     all_of (tiny dl) (f 0 0 0 A)%Qc) ->
  length p = 1 -> no_turn_y s -> trig_slopes m (nth 2 (nth 0 p []) 0%Qc) ->
  void_create m pts f (Some p) (Some s) = Made T Ds ->
  right_rates 3 (fun p => splines_of (void_create m pts f (Some p) None)) p s T Ds.
Proof.
  intros W B L G N P R TS H. apply void_inv in H. destruct H as (N0 & -> & -> & S0). destruct p as [|q [|? ?]]; try discriminate P.
  cbn [concat] in *. rewrite app_nil_r in *. destruct (S0 s eq_refl) as (b & S'). apply row_sens in S'. destruct S' as (ls & -> & Ls).
  do 5 (destruct ls as [|? ls]; try discriminate Ls). do 5 (destruct q as [|? q]; try discriminate N0). clear S0 N0 Ls P.
  eexists. split; [reflexivity|]. rewrite map_length, seq_length. split; auto. intros i Hi. rewrite nth_map_seq by auto.
  specialize (R i Hi). unfold direction in R. cbn [map nth] in R. unfold direction, slice. cbn [map nth].
  rewrite R. cbn [nth] in TS. generalize (nth i l 0%Qc) (nth i l0 0%Qc) (nth i l1 0%Qc). intros d1 d2 d3. clear R Hi.
  rename q3 into r4, q2 into r3, q1 into r2, q0 into r1. destruct TS as [TC TSn].
  apply deriv_der, (der_shift _ _ _ d3) in TC. apply deriv_der, (der_shift _ _ _ d3) in TSn.
  split; [apply L|].
  set (At := fun t => shift (repeat (qc 1 2) 3) (void_points m pts [r1 + t * d1; r2 + t * d2; r3 + t * d3; r4]%Qc)).
  set (D := shift (repeat 0%Qc 3) (void_derivs m pts [r1; r2; r3; r4] [d1; d2; d3; 0]%Qc)).
  assert (AtE : forall t, shift (repeat (qc 1 2) 3) (void_points m pts [r1 + t * d1; r2 + t * d2; r3 + t * d3; r4]%Qc) = At t) by reflexivity.
  assert (A0 : shift (repeat (qc 1 2) 3) (void_points m pts [r1; r2; r3; r4]) = At 0%Qc).
  { unfold At. replace (r1 + 0 * d1)%Qc with r1 by ring. replace (r2 + 0 * d2)%Qc with r2 by ring. now replace (r3 + 0 * d3)%Qc with r3 by ring. }
  rewrite A0.
  assert (LA : forall t, length (At t) = length pts) by (intros t; unfold At; now rewrite shift_length, void_points_length).
  assert (LD : length D = length pts) by (unfold D; rewrite shift_length; apply map_length).
  assert (X : forall k, k < length pts -> exists F0 F1 F2 g0 g1 g2, (forall t, nth k (At t) [] = [F0 t; F1 t; F2 t]) /\
     nth k D [] = [g0; g1; g2] /\ der F0 0%Qc g0 /\ der F1 0%Qc g1 /\ der F2 0%Qc g2).
  { intros k Hk. rewrite Forall_forall in W. destruct (W (nth k pts []) (nth_In _ _ Hk)) as (x & y & z & E).
    assert (M : forall v g, nth k (shift v (apply_rows g pts)) [] = row_add (map (fun r => dot r [x; y; z]) g) v).
    { intros v g. unfold shift. rewrite (nth_indep _ [] (row_add (map (fun r => dot r []) g) v)) by (unfold apply_rows; rewrite !map_length; auto).
      rewrite (map_nth (fun r => row_add r v) (apply_rows g pts) (map (fun r => dot r []) g)). unfold apply_rows.
      now rewrite (map_nth (fun p => map (fun r => dot r p) g) pts []), E. }
    clear W. unfold At, D, void_points, void_derivs.
    set (cs := fun t => cos m (r3 + t * d3)%Qc) in *. set (sn := fun t => sin m (r3 + t * d3)%Qc) in *.
    assert (C0 : cos m r3 = cs 0%Qc) by (unfold cs; f_equal; ring). assert (S1 : sin m r3 = sn 0%Qc) by (unfold sn; f_equal; ring).
    exists (fun t => cos m r4 * ((r1 + t * d1) * x) + sin m r4 * (sn t * ((r2 + t * d2) * y)) - sin m r4 * (cs t * ((r2 + t * d2) * z)) + qc 1 2)%Qc.
    exists (fun t => cs t * ((r2 + t * d2) * y) + sn t * ((r2 + t * d2) * z) + qc 1 2)%Qc.
    exists (fun t => sin m r4 * ((r1 + t * d1) * x) - cos m r4 * (sn t * ((r2 + t * d2) * y)) + cos m r4 * (cs t * ((r2 + t * d2) * z)) + qc 1 2)%Qc.
    exists (cos m r4 * (d1 * x) + sin m r4 * (d3 * cs 0 * (r2 * y) + sn 0 * (d2 * y)) - sin m r4 * (d3 * - sn 0 * (r2 * z) + cs 0 * (d2 * z)))%Qc.
    exists (d3 * - sn 0 * (r2 * y) + cs 0 * (d2 * y) + (d3 * cs 0 * (r2 * z) + sn 0 * (d2 * z)))%Qc.
    exists (sin m r4 * (d1 * x) - cos m r4 * (d3 * cs 0 * (r2 * y) + sn 0 * (d2 * y)) + cos m r4 * (d3 * - sn 0 * (r2 * z) + cs 0 * (d2 * z)))%Qc.
    split; [|split].
    - intros t. rewrite M. cbn [nth]. unfold rotation_x, rotation_y. change (cos m (r3 + t * d3)%Qc) with (cs t). change (sin m (r3 + t * d3)%Qc) with (sn t).
      generalize (cos m r4) (sin m r4) (qc 1 2) (cs t) (sn t). clear. intros.
      lazy -[Qcplus Qcmult Qcopp Qcminus Q2Qc]. repeat (f_equal; try ring).
    - rewrite M. cbn [nth]. unfold rotation_x, rotation_y, rotation_x_deriv, rotation_y_deriv. rewrite C0, S1.
      generalize (cos m r4) (sin m r4) (cs 0%Qc) (sn 0%Qc). clear. intros.
      lazy -[Qcplus Qcmult Qcopp Qcminus Q2Qc]. repeat (f_equal; try ring).
    - rewrite S1 in TC. rewrite C0 in TSn.
      generalize (cos m r4) (sin m r4) (qc 1 2). clearbody cs sn. clear - TC TSn. intros b a h.
      split; [|split].
      + eapply der_eq; [|steps TC TSn]. cbv beta. ring.
      + eapply der_eq; [|steps TC TSn]. cbv beta. ring.
      + eapply der_eq; [|steps TC TSn]. cbv beta. ring. }
  clearbody At D. clear TC TSn A0.
  intros k u c Hk Hu Hc e He.
  assert (Y : exists r, (0 < r)%Qc /\ forall j t, j < length pts -> (qabs t < r)%Qc -> exists x y z x' y' z' x0 y0 z0,
     nth j (At 0%Qc) [] = [x0; y0; z0] /\ nth j D [] = [x'; y'; z'] /\ nth j (At t) [] = [x; y; z] /\
     (- (e * qabs t) <= x - x0 - t * x' /\ x - x0 - t * x' <= e * qabs t)%Qc /\
     (- (e * qabs t) <= y - y0 - t * y' /\ y - y0 - t * y' <= e * qabs t)%Qc /\
     (- (e * qabs t) <= z - z0 - t * z' /\ z - z0 - t * z' <= e * qabs t)%Qc).
  { apply (all_small (length pts) (fun j t => exists x y z x' y' z' x0 y0 z0, nth j (At 0%Qc) [] = [x0; y0; z0] /\ nth j D [] = [x'; y'; z'] /\ nth j (At t) [] = [x; y; z] /\
     (- (e * qabs t) <= x - x0 - t * x' /\ x - x0 - t * x' <= e * qabs t)%Qc /\
     (- (e * qabs t) <= y - y0 - t * y' /\ y - y0 - t * y' <= e * qabs t)%Qc /\
     (- (e * qabs t) <= z - z0 - t * z' /\ z - z0 - t * z' <= e * qabs t)%Qc)).
    intros j Hj. destruct (X j Hj) as (F0 & F1 & F2 & g0 & g1 & g2 & XA & XD & Y0 & Y1 & Y2).
    destruct (small_rest _ _ Y0 e He) as (s0 & Hs0 & K0). destruct (small_rest _ _ Y1 e He) as (s1 & Hs1 & K1). destruct (small_rest _ _ Y2 e He) as (s2 & Hs2 & K2).
    destruct (two_radii _ _ Hs0 Hs1) as (s3 & Hs3 & L1 & L2). destruct (two_radii _ _ Hs2 Hs3) as (r & Hr & L3 & L4).
    exists r. split; auto. intros t Ht. exists (F0 t), (F1 t), (F2 t), g0, g1, g2, (F0 0%Qc), (F1 0%Qc), (F2 0%Qc).
    split; [apply XA|]. split; [exact XD|]. split; [apply XA|].
    split; [apply K0|split; [apply K1|apply K2]]; apply Qclt_le_trans with r; auto; apply Qcle_trans with s3; auto. }
  clear X. destruct Y as (r & Hr & Y). exists r. split; auto. intros t T' Ht HT.
  unfold moved in HT. cbn [map combine fst snd] in HT. apply splines_of_made in HT. destruct HT as (D' & HT). apply void_inv in HT.
  destruct HT as (_ & HT & _). cbn [concat] in HT. rewrite app_nil_r in HT. replace (r4 + t * 0)%Qc with r4 in HT by ring. rewrite AtE in HT. subst T'.
  specialize (fun j Hj => Y j t Hj Ht).
  set (dl := (e * qabs t)%Qc) in *.
  set (C := map (fun j => map (fun i => (nth i (nth j (At 0%Qc) []) 0 + t * nth i (nth j D []) 0)%Qc) [0; 1; 2]) (seq 0 (length pts))).
  set (E := map (fun j => map (fun i => (nth i (nth j (At t) []) 0 - nth i (nth j (At 0%Qc) []) 0 - t * nth i (nth j D []) 0)%Qc) [0; 1; 2]) (seq 0 (length pts))).
  assert (NC : forall j, j < length pts -> nth j C [] = map (fun i => (nth i (nth j (At 0%Qc) []) 0 + t * nth i (nth j D []) 0)%Qc) [0; 1; 2]) by (intros; unfold C; now rewrite nth_map_seq).
  assert (NE : forall j, j < length pts -> nth j E [] = map (fun i => (nth i (nth j (At t) []) 0 - nth i (nth j (At 0%Qc) []) 0 - t * nth i (nth j D []) 0)%Qc) [0; 1; 2]) by (intros; unfold E; now rewrite nth_map_seq).
  assert (LC : length C = length pts) by (unfold C; now rewrite map_length, seq_length).
  assert (LE : length E = length pts) by (unfold E; now rewrite map_length, seq_length).
  clearbody C E.
  assert (M1 : moves_all 3 t (f 0 (qc 1 2) 1 (At 0))%Qc (f 0 0 0 D)%Qc (f 0 (qc 1 2) 1 C)%Qc).
  { apply G; auto. apply Forall_all_of, Forall_forall. intros j Hj. apply in_seq in Hj. assert (Hj' : j < length pts) by lia.
    destruct (Y j Hj') as (x & y & z & x' & y' & z' & x0 & y0 & z0 & E0 & E1 & _). do 6 eexists. split; [exact E0|]. split; [exact E1|].
    rewrite (NC j Hj'), E0, E1. reflexivity. }
  assert (M2 : moves_all 3 1%Qc (f 0 (qc 1 2) 1 C)%Qc (f 0 0 0 E)%Qc (f 0 (qc 1 2) 1 (At t))%Qc).
  { apply G; auto. apply Forall_all_of, Forall_forall. intros j Hj. apply in_seq in Hj. assert (Hj' : j < length pts) by lia.
    destruct (Y j Hj') as (x & y & z & x' & y' & z' & x0 & y0 & z0 & E0 & E1 & E2 & _). do 6 eexists. split; [rewrite (NC j Hj'), E0, E1; reflexivity|].
    split; [rewrite (NE j Hj'), E0, E1, E2; reflexivity|]. rewrite E2. cbn [nth]. clear. repeat (f_equal; try ring). }
  assert (TI : all_of (tiny dl) (f 0 0 0 E)%Qc).
  { apply N; auto.
    - assert (0 <= dl)%Qc by (apply Qc_mul_nonneg; [now apply Qclt_le_weak|apply qabs_nonneg]). clearbody dl. clear - H. split; qlra.
    - apply Forall_all_of, Forall_forall. intros j Hj. apply in_seq in Hj. assert (Hj' : j < length pts) by lia.
      destruct (Y j Hj') as (x & y & z & x' & y' & z' & x0 & y0 & z0 & E0 & E1 & E2 & B0 & B1 & B2). do 3 eexists.
      split; [rewrite (NE j Hj'), E0, E1, E2; reflexivity|]. cbn [nth]. auto. }
  fold none in *. destruct (moves_dims _ _ _ _ _ k M1 Hk) as [_ D1]. 
  destruct (moves_all_nth _ _ _ _ _ M1) as (_ & L1 & _). destruct (moves_all_nth _ _ _ _ _ M2) as (L2 & _ & _). 
  assert (Hk' : k < length (f 0%Qc (qc 1 2) 1%Qc C)) by lia. destruct (moves_dims _ _ _ _ _ k M2 Hk') as [D2 _].
  rewrite (moves_value 3 1%Qc _ _ _ k u c (B _ _ _ _) (B _ _ _ _) (B _ _ _ _) M2) by (auto; rewrite D1; auto).
  rewrite (moves_value 3 t _ _ _ k u c (B _ _ _ _) (B _ _ _ _) (B _ _ _ _) M1) by auto.
  match goal with |- (qabs ?x <= _)%Qc => replace x with (sp_value (nth k (f 0 0 0 E)%Qc none) u c) by ring end.
  apply abs_between. apply tiny_value; auto.
  - pose proof (proj1 (Forall_forall _ _) (B 0 0 0 E)%Qc) as Q. apply Q. apply nth_In. lia.
  - apply all_of_Forall in TI. rewrite Forall_forall in TI. apply TI. apply nth_In. lia.
  - rewrite D2, D1. exact Hu.
Qed.
Ltac each3 := repeat match goal with
  | H : all_of _ (_ :: _) |- _ => destruct H as [(? & ? & ? & ? & ? & ? & ?) H]; cbn [nth] in *; subst
  | H : all_of _ [] |- _ => clear H
  end.
Lemma cube_tiny dl A : length A = 8 -> (- dl <= 0 /\ 0 <= dl)%Qc ->
  all_of (fun k => exists x y z, nth k A [] = [x; y; z] /\ (- dl <= x /\ x <= dl)%Qc /\ (- dl <= y /\ y <= dl)%Qc /\ (- dl <= z /\ z <= dl)%Qc) (seq 0 8) ->
  all_of (tiny dl) (cube_void_splines 0 0 A)%Qc.
Proof.
  intros LA Z G. do 9 (destruct A as [|? A]; try discriminate LA). clear LA. cbn [seq] in G. each3.
  reduce_tables. repeat split; first [reflexivity | assumption | apply Z | match goal with H : _ /\ _ |- _ => apply H end].
Qed.
Lemma ball_tiny dl A : length A = 27 -> (- dl <= 0 /\ 0 <= dl)%Qc ->
  all_of (fun k => exists x y z, nth k A [] = [x; y; z] /\ (- dl <= x /\ x <= dl)%Qc /\ (- dl <= y /\ y <= dl)%Qc /\ (- dl <= z /\ z <= dl)%Qc) (seq 0 27) ->
  all_of (tiny dl) (ellips_splines 0 0 0 A)%Qc.
Proof.
  intros LA Z G. do 28 (destruct A as [|? A]; try discriminate LA). clear LA. cbn [seq] in G. each3.
  reduce_tables. repeat split; first [reflexivity | apply Z | match goal with H : _ /\ _ |- _ => apply H end].
Qed.
Lemma cube_void_turned m p s T Ds : length p = 1 -> no_turn_y s -> trig_slopes m (nth 2 (nth 0 p []) 0%Qc) ->
  cube_void_create m (Some p) (Some s) = Made T Ds -> right_rates 3 (fun p => splines_of (cube_void_create m (Some p) None)) p s T Ds.
Proof.
  intros L R TS H. eapply void_turned; eauto.
  - unfold cube_points. repeat constructor; eauto.
  - intros. all_bez.
  - intros t A B C LA LB LC G. do 9 (destruct A as [|? A]; try discriminate LA). do 9 (destruct B as [|? B]; try discriminate LB). do 9 (destruct C as [|? C]; try discriminate LC).
    clear LA LB LC. cbn [seq length cube_points] in G. each. clear. reduce_tables. facts ltac:(first [reflexivity | assumption | ring]).
  - intros dl A LA Z G. apply cube_tiny; auto.
Qed.
Lemma ball_turned m p s T Ds : length p = 1 -> no_turn_y s -> trig_slopes m (nth 2 (nth 0 p []) 0%Qc) ->
  ellips_create m (Some p) (Some s) = Made T Ds -> right_rates 3 (fun p => splines_of (ellips_create m (Some p) None)) p s T Ds.
Proof.
  intros L R TS H. eapply void_turned; eauto.
  - unfold sphere_points. repeat constructor; eauto.
  - intros. all_bez.
  - intros t A B C LA LB LC G. do 28 (destruct A as [|? A]; try discriminate LA). do 28 (destruct B as [|? B]; try discriminate LB). do 28 (destruct C as [|? C]; try discriminate LC).
    clear LA LB LC. cbn [seq length sphere_points] in G. each. clear. reduce_tables. facts ltac:(first [reflexivity | assumption | ring]).
  - intros dl A LA Z G. apply ball_tiny; auto.
Qed.

(** Functions with these slopes at zero. *)
Definition turning_libm : libm := Libm (qc 22 7) (fun t => t) (fun t => 1 - t * t)%Qc (fun x => x).
Lemma turning_slopes : trig_slopes turning_libm 0%Qc.
Proof.
  split; cbn [cos sin turning_libm]; apply der_is_deriv.
  - eapply der_eq; [|steps I I]. cbv beta. ring.
  - eapply der_eq; [|steps I I]. cbv beta. ring.
Qed.
