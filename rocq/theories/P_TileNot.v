(** What fails for the tiles. *)
From Coq Require Import String List Arith Lia ZArith QArith Qcanon Bool.
From Verif Require Import Base BaseQc S_Grid M_Grid S_Spline S_Value S_Deriv M_Core S_Integrate P_Value P_Deriv
  M_Tiles M_Tile2D M_Tile3D M_TileMake S_Tiles P_Tiles P_Tile2D P_TileSnappy P_TileOctagon P_TileCross3 P_TileWall P_Tile3D P_TileVoid.
Import ListNotations.
Local Open Scope list_scope.
Local Open Scope nat_scope.

(** ** Rates of what does not change *)
Lemma still dim make p d T D k u c : changes_by dim make p d T D -> k < length T -> in_box (para_dim (nth k T none)) u -> c < dim ->
  (forall t T', make (moved p d t) = Some T' -> sp_value (nth k T' none) u c = sp_value (nth k T none) u c) ->
  (forall r, (0 < r)%Qc -> exists t T', (0 < t)%Qc /\ (t < r)%Qc /\ make (moved p d t) = Some T') ->
  sp_value (nth k D none) u c = 0%Qc.
Proof.
  intros [_ H] Hk Hu Hc S E. fold none in H. set (g := sp_value (nth k D none) u c) in *.
  destruct (Qc_eq_dec g 0) as [|N]; auto. exfalso.
  assert (P : (0 < qabs g)%Qc) by now apply qabs_gt_0.
  destruct (H k u c Hk Hu Hc (qabs g * qc 1 2)%Qc) as (r & Hr & K); [apply Qc_mul_pos; auto; reflexivity|].
  destruct (E r Hr) as (t & T' & T0 & T1 & M). specialize (K t T'). rewrite (qabs_pos_eq t) in K by (apply Qclt_le_weak; auto). specialize (K T1 M).
  rewrite (S _ _ M) in K. fold g in K. clearbody g. clear - K P T0.
  match type of K with (qabs ?x <= _)%Qc => replace x with (- (t * g))%Qc in K by ring end.
  rewrite qabs_opp, qabs_mul, (qabs_pos_eq t) in K by (apply Qclt_le_weak; auto). generalize dependent (qabs g). intros x P K. pose proof (Qc_mul_pos _ _ T0 P). unfold qc in K. qnra.
Qed.
Lemma small_step r : (0 < r)%Qc -> exists t, (0 < t)%Qc /\ (t < r)%Qc.
Proof. intros H. exists (r * qc 1 2)%Qc. unfold qc. split; qlra. Qed.

(** ** Chi *)
Lemma curve2_value r0 r1 r2 t c : sp_value (bez [2] [r0; r1; r2]) [t] c =
  ((1 - t) * (1 - t) * nth c r0 0 + (1 + 1) * t * (1 - t) * nth c r1 0 + t * t * nth c r2 0)%Qc.
Proof.
  rewrite bez_value. unfold functional, baxes, sp_basis. cbn [map combine fst snd ax_n ax_fun tensor Nat.add].
  cbn -[inj Qcmult Qcplus Qcminus Qcopp nth bernstein coord]. unfold coord. cbn [nth].
  unfold bernstein. cbn -[inj Qcmult Qcplus Qcminus Qcopp]. rewrite ?inj_S, ?inj_0. ring.
Qed.
Lemma chi_rates_wrong m : (0 < pi m)%Qc -> cos m 0%Qc = 1%Qc -> sqrt m (qc 1 8) <> 0%Qc ->
  exists T Ds, chi_create m (Some [[0%Qc]]) (Some [[[0%Qc]]]) = Made T Ds /\
  ~ right_rates 2 (fun p => splines_of (chi_create m (Some p) None)) [[0%Qc]] [[[0%Qc]]] T Ds.
Proof.
  intros P C R.
  assert (E : forall s, check_param_derivatives 1 1 s <> None -> chi_create m (Some [[0%Qc]]) s = loop (chi_value m) (chi_deriv m) [[0%Qc]] s).
  { intros s Hs. unfold chi_create. cbv zeta. cbn [concat app forallb].
    assert (B : (qleb (- (pi m * qc 1 2)) 0 && true && (qltb 0 (pi m * qc 1 2) && true) = true)%Qc).
    { destruct (qleb_spec (- (pi m * qc 1 2))%Qc 0%Qc) as [_|N]; [|exfalso; apply N; unfold qc; qlra].
      destruct (qltb_spec 0%Qc (pi m * qc 1 2)%Qc) as [_|N]; [reflexivity|exfalso; apply N; unfold qc; qlra]. }
    rewrite B. cbn [negb]. change (check_params 1 1 [[0%Qc]]) with true. cbn [negb].
    destruct (check_param_derivatives 1 1 s); [reflexivity|]. exfalso. apply Hs. reflexivity. }
  do 2 eexists. split; [rewrite E by discriminate; reflexivity|].
  intros (D & HD & _ & H). injection HD as <-. specialize (H 0 (le_n 1)). cbn [nth] in H.
  assert (M : forall t, moved [[0%Qc]] (direction [[[0%Qc]]] 0) t = [[0%Qc]]).
  { intros t. lazy -[Qcplus Qcmult Qcopp Qcminus Q2Qc]. do 2 f_equal. ring. }
  assert (Z : sp_value (nth 0 (chi_deriv m (slice [[[0%Qc]]] 0)) none) [qc 1 2] 0 = 0%Qc).
  { eapply (still 2 _ _ _ _ _ 0 _ 0 H); [cbn; lia| |lia| |].
    - split; [reflexivity|]. constructor; [split; discriminate|constructor].
    - intros t T' HT. rewrite M in HT. apply splines_of_made in HT. destruct HT as (D' & HT). rewrite E in HT by discriminate.
      unfold loop in HT. injection HT as <- _. reflexivity.
    - intros r Hr. destruct (small_step r Hr) as (t & T0 & T1). eexists t, _. split; auto. split; auto. rewrite M, E by discriminate. reflexivity. }
  apply R. unfold chi_deriv, chi_splines, slice, at2 in Z. cbv zeta in Z. cbn [nth map shift_all row_add combine fst snd] in Z.
  rewrite C in Z. unfold shift_all in Z. cbn [map] in Z. rewrite curve2_value in Z. cbn [nth] in Z. revert Z. generalize (sqrt m (qc 1 8)). clear. intros r Z.
  unfold qc in Z. qlra.
Qed.

(** ** CubeVoid and EllipsVoid: the matrix of the rotation's rate *)
Lemma right_rates_at dim make p s T g i : right_rates dim make p s T (option_map (fun d => map (g d) (seq 0 (n_derivatives d))) (Some s)) ->
  i < n_derivatives s -> changes_by dim make p (direction s i) T (g s i).
Proof.
  intros (D & E & _ & H) Hi. unfold option_map in E. assert (D = map (g s) (seq 0 (n_derivatives s))) as -> by congruence.
  specialize (H i Hi). now rewrite nth_map_seq in H by auto.
Qed.
Lemma made_inj T D T' D' : Made T D = Made T' D' -> T = T' /\ D = D'.
Proof. intros E. now inversion E. Qed.
Definition void_p : array2 := [[qc 1 2; qc 1 2; 0; 0]]%Qc.
Definition void_s : array3 := [[[0]; [0]; [0]; [1]]]%Qc.
Lemma void_made m pts f p s : length (concat p) = 4 -> check_param_derivatives 1 4 s <> None ->
  void_create m pts f (Some p) s = Made (f 0%Qc (qc 1 2) 1%Qc (shift (repeat (qc 1 2) 3) (void_points m pts (concat p))))
    (option_map (fun d => map (fun i => f 0%Qc 0%Qc 0%Qc (shift (repeat 0%Qc 3) (void_derivs m pts (concat p) (nth 0 (slice d i) []))))
              (seq 0 (n_derivatives d))) s).
Proof.
  intros L C. unfold void_create. rewrite L. cbn [Nat.eqb negb]. destruct (check_param_derivatives 1 4 s); [reflexivity|]. now exfalso.
Qed.
Lemma void_moved t : moved void_p (direction void_s 0) t = [[qc 1 2; qc 1 2; 0; t]]%Qc.
Proof. unfold void_p, void_s, direction, moved. cbn [map combine fst snd nth]. repeat f_equal; ring. Qed.
(** The first control point's second coordinate. *)
Lemma void_second m x y z ps r1 r2 b : cos m 0%Qc = 1%Qc -> sin m 0%Qc = 0%Qc ->
  nth 1 (nth 0 (shift (repeat (qc 1 2) 3) (void_points m ([x; y; z] :: ps) [r1; r2; 0; b]%Qc)) []) 0%Qc = (r2 * y + qc 1 2)%Qc.
Proof.
  intros C S. unfold void_points. cbn [nth]. unfold rotation_x. rewrite C, S. unfold rotation_y. generalize (cos m b) (sin m b) (qc 1 2). intros.
  lazy -[Qcplus Qcmult Qcopp Qcminus Q2Qc]. ring.
Qed.
Lemma void_second_rate m x y z ps r1 r2 b : cos m 0%Qc = 1%Qc -> sin m 0%Qc = 0%Qc ->
  nth 1 (nth 0 (shift (repeat 0%Qc 3) (void_derivs m ([x; y; z] :: ps) [r1; r2; 0; b]%Qc [0; 0; 0; 1]%Qc)) []) 0%Qc = (r2 * y)%Qc.
Proof.
  intros C S. unfold void_derivs. cbn [nth]. unfold rotation_x, rotation_x_deriv. rewrite C, S. unfold rotation_y, rotation_y_deriv. generalize (cos m b) (sin m b). intros.
  lazy -[Qcplus Qcmult Qcopp Qcminus Q2Qc]. ring.
Qed.
Lemma void_rates_wrong m x y z ps f degs (q : Qc -> Qc -> Qc -> list (list Qc) -> list (list Qc)) rest :
  (forall v0 v1 v2 A, f v0 v1 v2 A = bez degs (q v0 v1 v2 A) :: rest v0 v1 v2 A) ->
  length degs = 3 -> (forall v0 v1 v2 A, coord (q v0 v1 v2 A) 1 (corner_id degs [false; false; true]) = nth 1 (nth 0 A []) 0%Qc) ->
  cos m 0%Qc = 1%Qc -> sin m 0%Qc = 0%Qc -> y <> 0%Qc ->
  exists T Ds, void_create m ([x; y; z] :: ps) f (Some void_p) (Some void_s) = Made T Ds /\
  ~ right_rates 3 (fun p => splines_of (void_create m ([x; y; z] :: ps) f (Some p) None)) void_p void_s T Ds.
Proof.
  intros F L Q C S Y. do 2 eexists. split; [apply void_made; [reflexivity|discriminate]|].
  intros H. apply (right_rates_at _ _ _ _ _ (fun d i => f 0%Qc 0%Qc 0%Qc (shift (repeat 0%Qc 3) (void_derivs m ([x; y; z] :: ps) (concat void_p) (nth 0 (slice d i) [])))) 0) in H; [|exact (le_n 1)].
  assert (V : forall v0 v1 v2 A, sp_value (nth 0 (f v0 v1 v2 A) none) (map bound [false; false; true]) 1 = nth 1 (nth 0 A []) 0%Qc).
  { intros. rewrite F. cbn [nth]. rewrite bez_corner by (rewrite L; reflexivity). apply Q. }
  eapply (still 3 _ _ _ _ _ 0 (map bound [false; false; true]) 1) in H; [| | |lia| |].
  - rewrite V in H. change (nth 0 (slice void_s 0) []) with [0; 0; 0; 1]%Qc in H. change (concat void_p) with [qc 1 2; qc 1 2; 0; 0]%Qc in H.
    rewrite void_second_rate in H by auto. apply Y. unfold qc in H. qlra.
  - rewrite F. cbn. lia.
  - rewrite F. cbn [nth]. rewrite para_dim_bez, L. split; [reflexivity|]. repeat constructor; discriminate.
  - intros t T' HT. rewrite void_moved in HT. apply splines_of_made in HT. destruct HT as (D' & HT).
    rewrite void_made in HT by (reflexivity || discriminate). apply made_inj in HT. destruct HT as [<- _]. rewrite !V. change (concat void_p) with [qc 1 2; qc 1 2; 0; 0]%Qc. change (concat [[qc 1 2; qc 1 2; 0%Qc; t]]) with [qc 1 2; qc 1 2; 0%Qc; t].
    now rewrite !void_second by auto.
  - intros r Hr. destruct (small_step r Hr) as (t & T0 & T1). eexists t, _. split; auto. split; auto. rewrite void_moved, void_made by (reflexivity || discriminate). reflexivity.
Qed.
Lemma cube_void_rates_wrong m : cos m 0%Qc = 1%Qc -> sin m 0%Qc = 0%Qc ->
  exists T Ds, cube_void_create m (Some void_p) (Some void_s) = Made T Ds /\
  ~ right_rates 3 (fun p => splines_of (cube_void_create m (Some p) None)) void_p void_s T Ds.
Proof.
  intros C S. unfold cube_void_create, cube_points. cbv zeta.
  eapply (void_rates_wrong m _ _ _ _ (fun zero half one => cube_void_splines zero one) [1; 1; 1]); auto.
  - intros. unfold cube_void_splines. reflexivity.
  - intros. reflexivity.
  - intro Z. apply (f_equal this) in Z. discriminate Z.
Qed.
Lemma ball_rates_wrong m : cos m 0%Qc = 1%Qc -> sin m 0%Qc = 0%Qc -> root_three m ->
  exists T Ds, ellips_create m (Some void_p) (Some void_s) = Made T Ds /\
  ~ right_rates 3 (fun p => splines_of (ellips_create m (Some p) None)) void_p void_s T Ds.
Proof.
  intros C S [R1 R2]. unfold ellips_create, sphere_points. cbv zeta.
  eapply (void_rates_wrong m _ _ _ _ ellips_splines [2; 2; 1]); auto.
  - intros. unfold ellips_splines. reflexivity.
  - intros. reflexivity.
  - intro Z. assert (N : sqrt m (qc 3 1) <> 0%Qc) by (intro E; rewrite E in R1; now apply R1).
    apply N. clear - Z N. set (s := sqrt m (qc 3 1)) in *. clearbody s. exfalso.
    assert (E : (- (- (qc 1 2 / s)) * s = qc 1 2)%Qc) by (field; auto). rewrite Z in E. 
    assert (X : (- 0 * s = 0)%Qc) by ring. rewrite X in E. discriminate E.
Qed.
(** ** CubeVoid: nothing keeps the void inside the cell *)
Lemma cube_first x y A : sp_value (nth 0 (cube_void_splines x y A) none) (map bound [false; false; true]) 1 = nth 1 (nth 0 A []) 0%Qc.
Proof. unfold cube_void_splines. cbn [nth]. rewrite bez_corner by reflexivity. reflexivity. Qed.
Lemma ball_first x y z A : sp_value (nth 0 (ellips_splines x y z A) none) (map bound [false; false; true]) 1 = nth 1 (nth 0 A []) 0%Qc.
Proof. unfold ellips_splines. cbn [nth]. rewrite bez_corner by reflexivity. reflexivity. Qed.
Lemma cube_void_outside m : cos m 0%Qc = 1%Qc -> sin m 0%Qc = 0%Qc ->
  exists p T, cube_void_create m (Some p) None = Made T None /\ ~ inside_cell 3 T.
Proof.
  intros C S. exists [[qc 4 1; qc 4 1; 0; 0]]%Qc. eexists. split; [unfold cube_void_create; apply void_made; [reflexivity|discriminate]|].
  intros H. specialize (H (nth 0 (cube_void_splines 0%Qc 1%Qc (shift (repeat (qc 1 2) 3) (void_points m cube_points (concat [[qc 4 1; qc 4 1; 0; 0]]%Qc)))) none) (map bound [false; false; true]) 1).
  destruct H as [H _].
  - left. reflexivity.
  - split; [reflexivity|]. repeat constructor; discriminate.
  - lia.
  - rewrite cube_first in H.
    unfold cube_points in H. cbv zeta in H. change (concat [[qc 4 1; qc 4 1; 0; 0]]%Qc) with [qc 4 1; qc 4 1; 0; 0]%Qc in H. rewrite void_second in H by auto. now apply H.
Qed.
Lemma ball_outside m : cos m 0%Qc = 1%Qc -> sin m 0%Qc = 0%Qc -> root_three m ->
  exists p T, ellips_create m (Some p) None = Made T None /\ ~ inside_cell 3 T.
Proof.
  intros C S [R1 R2]. exists [[qc 4 1; qc 4 1; 0; 0]]%Qc. eexists. split; [unfold ellips_create; apply void_made; [reflexivity|discriminate]|].
  intros H. specialize (H (nth 0 (ellips_splines 0%Qc (qc 1 2) 1%Qc (shift (repeat (qc 1 2) 3) (void_points m (sphere_points m) (concat [[qc 4 1; qc 4 1; 0; 0]]%Qc)))) none) (map bound [false; false; true]) 1).
  destruct H as [H _].
  - left. reflexivity.
  - split; [reflexivity|]. repeat constructor; discriminate.
  - lia.
  - rewrite ball_first in H.
    unfold sphere_points in H. cbv zeta in H. change (concat [[qc 4 1; qc 4 1; 0; 0]]%Qc) with [qc 4 1; qc 4 1; 0; 0]%Qc in H. rewrite void_second in H by auto. clear - H R1 R2.
    set (s := sqrt m (qc 3 1)) in *. clearbody s.
    assert (E : (qc 1 2 / s * s = qc 1 2)%Qc) by (field; intro E; rewrite E in R1; now apply R1).
    generalize dependent (qc 1 2 / s)%Qc. unfold qc in *. intros. qnra.
Qed.

(** ** HollowCube: patches turned inside out *)
Lemma bez_jacobian degs cps u : length u = length degs -> jacobian (bez degs cps) u (fun d j => sp_deriv (bez degs cps) j u d).
Proof.
  intros L d j Hd Hj. unfold bez in Hj. cbn [sp_axes] in Hj. rewrite map_length in Hj. apply der_is_deriv.
  unfold sp_value, sp_deriv. cbn [sp_weights bez sp_axes sp_cps].
  rewrite dbasis_split by (rewrite ?map_length; lia).
  rewrite (map_nth BezierAxis degs 0 j). cbn [ax_n ax_dfun].
  eapply der_ext with (r := 1%Qc); [reflexivity| |apply (tensor_der _ _ (fun y i => bernstein (nth j degs 0%nat) i y)); intros; apply bernstein_der].
  intros y _. cbv beta. rewrite basis_put by (rewrite ?map_length; lia).
  rewrite (map_nth BezierAxis degs 0 j). reflexivity.
Qed.
Lemma turned T k degs cps u : nth k T none = bez degs cps -> k < length T -> length u = length degs -> Forall (fun x => 0 < x /\ x < 1)%Qc u ->
  (det (length degs) (fun d j => sp_deriv (bez degs cps) j u d) <= 0)%Qc -> ~ right_handed T.
Proof.
  intros E Hk L B N H. specialize (H (nth k T none) u (fun d j => sp_deriv (bez degs cps) j u d)).
  rewrite E in H at 2 3 4. rewrite para_dim_bez in H. apply (Qcle_not_lt _ _ N). apply H; auto.
  - now apply nth_In.
  - now apply bez_jacobian.
Qed.
Lemma hollow_cube_turned : exists T, hollow_cube_create None None = Made T None /\ ~ right_handed T.
Proof.
  eexists. split; [reflexivity|].
  eapply (turned _ 0 [1; 1; 1] _ [qc 1 2; qc 1 2; qc 1 2]); [reflexivity|cbn; lia|reflexivity|repeat constructor|].
  intro Z. vm_compute in Z. discriminate Z.
Qed.
(** ** Cross3D: walls that are too narrow *)
Lemma missed degs cps d lo hi x u : length cps = netn degs -> in_box (length degs) u ->
  Forall (fun p => lo <= nth d p 0 /\ nth d p 0 <= hi)%Qc cps -> (x < lo \/ hi < x)%Qc -> sp_value (bez degs cps) u d <> x.
Proof.
  intros L B F C E. destruct (bez_between degs cps u d lo hi L B F) as [A1 A2]. rewrite E in A1, A2.
  destruct C as [C|C]; now apply (Qclt_not_le _ _ C).
Qed.
Ltac miss d lo hi := match goal with U : in_box _ ?u, V : forall c : nat, _ -> _ |- False =>
  let X := fresh in assert (X := V d ltac:(lia)); clear V;
  refine (missed _ _ d lo hi _ u _ _ _ _ X); [reflexivity|exact U| | ];
  [clear X U; repeat apply Forall_cons; try apply Forall_nil; cbn [nth]; split; qq|clear X U; cbn [nth]; first [left; qq | right; qq]] end.
Lemma wall_missed w l z0 z1 (up : bool) p u : (0 < w -> w < qc 1 2 -> 0 < l -> l < w -> l < qc 1 2)%Qc -> (0 < w)%Qc -> (w < qc 1 2)%Qc -> (0 < l)%Qc -> (l < w)%Qc ->
  In p (wall w l z0 z1) -> in_box (para_dim p) u ->
  (forall c, c < 3 -> sp_value p u c = nth c [l * qc 1 2; qc 1 2; if up then z1 else z0]%Qc 0%Qc) -> False.
Proof.
  intros L2 W1 W2 L1 L3 I U V. specialize (L2 W1 W2 L1 L3). unfold wall in I. 
  repeat (destruct I as [<-|I]); [..|destruct I]; unfold box in *; rewrite para_dim_bez in U.
  - miss 1 0%Qc w.
  - miss 1 (1 - w)%Qc 1%Qc.
  - miss 1 0%Qc w.
  - miss 1 (1 - w)%Qc 1%Qc.
  - miss 0 w 1%Qc.
  - miss 0 l w.
  - miss 0 w 1%Qc.
  - miss 0 w 1%Qc.
  - miss 0 w 1%Qc.
Qed.
Lemma cross3_gap q ce cl bw fh p s T D x : cross3_create q ce cl bw fh (Some p) s = Made T D -> (qc 1 3 < bw)%Qc -> closes 2 cl x -> ~ covers_side 3 2 x T.
Proof.
  intros H Hw C G. apply cross3_kinds in H. destruct H as (x0 & x1 & y0 & y1 & z0 & z1 & c & -> & B & _ & K).
  assert (S : forall l, start bw l -> l = (qc 3 1 * bw - 1)%Qc).
  { intros l [[X _]|[_ X]]; auto. exfalso. apply (Qclt_not_le _ _ Hw X). }
  set (l := (qc 3 1 * bw - 1)%Qc) in *.
  assert (Y : width_ok bw fh -> in_box 3 [l * qc 1 2; qc 1 2; x]%Qc /\ (0 < l)%Qc /\ (l < bw)%Qc /\ (l < qc 1 2)%Qc).
  { intros (W1 & W2 & _). assert (0 < l /\ l < bw /\ l < qc 1 2)%Qc by (unfold l; clear -Hw W1 W2; unfold qc in *; repeat split; qlra).
    split; auto. split; [reflexivity|]. clearbody l. clear S. destruct C as [[_ ->]|[_ ->]]; repeat constructor; unfold qc in *; clear -H; flat; qlra. }
  destruct C as [[-> ->]|[-> ->]]; inversion K; subst; try discriminate.
  - destruct (Y H0) as (I & L1 & L2 & L3). destruct (G _ I eq_refl) as (p & u & P & U & V). clear G Y.
    rewrite (S _ H1) in *. destruct H0 as (W1 & W2 & F1 & F2). unfold bottom3 in P. apply in_app_iff in P. destruct P as [P|P].
    + eapply (wall_missed bw l 0%Qc fh false p u); eauto.
    + clearbody l. clear S I. sides0. destruct P as [<-|[]]. destruct q; rewrite para_dim_bez in U; unfold sq in *; cbn [app] in *.
      * miss 2 fh 1%Qc.
      * miss 2 fh 1%Qc.
  - destruct (Y H0) as (I & L1 & L2 & L3). destruct (G _ I eq_refl) as (p & u & P & U & V). clear G Y.
    rewrite (S _ H1) in *. destruct H0 as (W1 & W2 & F1 & F2). unfold top3 in P. apply in_app_iff in P. destruct P as [P|P].
    + eapply (wall_missed bw l (1 - fh)%Qc 1%Qc true p u); eauto.
    + clearbody l. clear S I. sides0. destruct P as [<-|[]]. destruct q; rewrite para_dim_bez in U; unfold sq in *; cbn [app] in *.
      * miss 2 0%Qc (1 - fh)%Qc.
      * miss 2 0%Qc (1 - fh)%Qc.
Qed.
(** ** Snappy: the block next to the middle leaves the cell *)
Lemma snappy_outside : exists T, snappy_create (qc 1 10) 0%Qc (qc 3 5) (qc 1 10) (qc 1 10) None None None = Made T None /\ ~ inside_cell 2 T.
Proof.
  eexists. split; [reflexivity|]. intros H.
  edestruct (H (nth 4 (snappy_splines 0 (qc 1 2) 1 (qc 1 10 * qc 1 2) (1 - qc 1 10 * qc 1 2) 0 (1 - 0) (qc 3 5) (qc 1 10))%Qc none) (map bound [false; false]) 1) as [A _].
  - unfold snappy_splines. cbv zeta. cbn [nth In]. tauto.
  - split; [reflexivity|]. repeat constructor; discriminate.
  - lia.
  - apply A. vm_compute. reflexivity.
Qed.
(** ** Degenerate tiles *)
Lemma snappy_flat : exists T, snappy_create (qc 1 10) 0%Qc (qc 1 5) (qc 1 10) (qc 1 10) None None None = Made T None /\ ~ right_handed T.
Proof.
  eexists. split; [reflexivity|].
  eapply (turned _ 2 [1; 1] _ [qc 1 2; qc 1 2]); [reflexivity|cbn; lia|reflexivity|repeat constructor|].
  intro Z. vm_compute in Z. discriminate Z.
Qed.
Lemma cross3_flat q : exists T, cross3_create q 1%Qc None 0%Qc 0%Qc (Some (full 6 1 (qc 1 2))) None = Made T None /\ ~ right_handed T.
Proof.
  destruct q; (eexists; split; [reflexivity|]).
  - eapply (turned _ 1 [2; 1; 1] _ [qc 1 2; qc 1 2; qc 1 2]); [reflexivity|cbn; lia|reflexivity|repeat constructor|].
    intro Z. vm_compute in Z. discriminate Z.
  - eapply (turned _ 1 [1; 1; 1] _ [qc 1 2; qc 1 2; qc 1 2]); [reflexivity|cbn; lia|reflexivity|repeat constructor|].
    intro Z. vm_compute in Z. discriminate Z.
Qed.
(** ** CubeVoid and EllipsVoid: rates of the sizes *)
Lemma void_changes m pts f p s T Ds : Forall (fun v => exists x y z, v = [x; y; z]) pts ->
  (forall v0 v1 v2 A, Forall is_bez (f v0 v1 v2 A)) -> (forall A B, length (f 0 0 0 A)%Qc = length (f 0 (qc 1 2) 1 B)%Qc) ->
  (forall t A B C, length A = length pts -> length B = length pts -> length C = length pts ->
     all_of (fun k => exists x y z x' y' z', nth k A [] = [x; y; z] /\ nth k B [] = [x'; y'; z'] /\ nth k C [] = [x + t * x'; y + t * y'; z + t * z']%Qc) (seq 0 (length pts)) ->
     moves_all 3 t (f 0 (qc 1 2) 1 A)%Qc (f 0 0 0 B)%Qc (f 0 (qc 1 2) 1 C)%Qc) ->
  length p = 1 -> (forall i, i < n_derivatives s -> at2 (direction s i) 0 2 = 0%Qc /\ at2 (direction s i) 0 3 = 0%Qc) ->
  void_create m pts f (Some p) (Some s) = Made T Ds ->
  right_rates 3 (fun p => splines_of (void_create m pts f (Some p) None)) p s T Ds.
Proof.
  intros W B L G P R H. apply void_inv in H. destruct H as (N & -> & -> & S). destruct p as [|q [|? ?]]; try discriminate P.
  cbn [concat] in *. rewrite app_nil_r in *. destruct (S s eq_refl) as (b & S'). apply row_sens in S'. destruct S' as (ls & -> & Ls).
  do 5 (destruct ls as [|? ls]; try discriminate Ls). do 5 (destruct q as [|? q]; try discriminate N). clear S N Ls P.
  eexists. split; [reflexivity|]. rewrite map_length, seq_length. split; auto. intros i Hi. rewrite nth_map_seq by auto.
  destruct (R i Hi) as [R1 R2]. unfold direction, at2 in R1, R2. cbn [map nth] in R1, R2. unfold direction, slice. cbn [map nth].
  rewrite R1, R2. generalize (nth i l 0%Qc) (nth i l0 0%Qc). intros d1 d2. clear R R1 R2 Hi.
  apply changes_affine; auto.
  intros t T' HT. unfold moved in HT. cbn [map combine fst snd] in HT. apply splines_of_made in HT. destruct HT as (D' & HT). apply void_inv in HT.
  destruct HT as (_ & -> & _). cbn [concat]. rewrite app_nil_r. rename q3 into r4, q2 into r3, q1 into r2, q0 into r1. replace (r3 + t * 0)%Qc with r3 by ring. replace (r4 + t * 0)%Qc with r4 by ring.
  split; auto. apply G.
  - now rewrite shift_length, void_points_length.
  - rewrite shift_length. apply map_length.
  - now rewrite shift_length, void_points_length.
  - assert (X : forall ns, (forall k, In k ns -> k < length pts) -> all_of (fun k => exists x y z x' y' z',
      nth k (shift (repeat (qc 1 2) 3) (void_points m pts [r1; r2; r3; r4])) [] = [x; y; z] /\
      nth k (shift (repeat 0%Qc 3) (void_derivs m pts [r1; r2; r3; r4] [d1; d2; 0; 0]%Qc)) [] = [x'; y'; z'] /\
      nth k (shift (repeat (qc 1 2) 3) (void_points m pts [r1 + t * d1; r2 + t * d2; r3; r4]%Qc)) [] = [x + t * x'; y + t * y'; z + t * z']%Qc) ns).
    { induction ns as [|k ns IH]; intros Hl; [exact I|]. split; [|apply IH; intros; apply Hl; now right].
      assert (Hk : k < length pts) by (apply Hl; now left).
      rewrite Forall_forall in W. destruct (W (nth k pts []) (nth_In _ _ Hk)) as (x & y & z & E).
      assert (M : forall v g, nth k (shift v (apply_rows g pts)) [] = row_add (map (fun r => dot r [x; y; z]) g) v).
      { intros v g. unfold shift. rewrite (nth_indep _ [] (row_add (map (fun r => dot r []) g) v)) by (unfold apply_rows; rewrite !map_length; auto).
        rewrite (map_nth (fun r => row_add r v) (apply_rows g pts) (map (fun r => dot r []) g)). unfold apply_rows.
        now rewrite (map_nth (fun p => map (fun r => dot r p) g) pts []), E. }
      unfold void_points, void_derivs. rewrite !M. cbn [nth]. unfold rotation_x, rotation_y, rotation_x_deriv, rotation_y_deriv.
      generalize (cos m r3) (sin m r3) (cos m r4) (sin m r4) (qc 1 2). clear. intros.
      do 6 eexists. split; [reflexivity|]. split; [reflexivity|].
      lazy -[Qcplus Qcmult Qcopp Qcminus Q2Qc]. repeat (f_equal; try ring). }
    apply X. intros k Hk. apply in_seq in Hk. lia.
Qed.
Ltac each := repeat match goal with
  | H : all_of _ (_ :: _) |- _ => destruct H as [(? & ? & ? & ? & ? & ? & ? & ? & ?) H]; cbn [nth] in *; subst
  | H : all_of _ [] |- _ => clear H
  end.
Lemma cube_void_changes m p s T Ds : length p = 1 -> (forall i, i < n_derivatives s -> at2 (direction s i) 0 2 = 0%Qc /\ at2 (direction s i) 0 3 = 0%Qc) ->
  cube_void_create m (Some p) (Some s) = Made T Ds -> right_rates 3 (fun p => splines_of (cube_void_create m (Some p) None)) p s T Ds.
Proof.
  intros L R H. eapply void_changes; eauto.
  - unfold cube_points. repeat constructor; eauto.
  - intros. all_bez.
  - intros t A B C LA LB LC G. do 9 (destruct A as [|? A]; try discriminate LA). do 9 (destruct B as [|? B]; try discriminate LB). do 9 (destruct C as [|? C]; try discriminate LC).
    clear LA LB LC. cbn [seq length cube_points] in G. each. clear. reduce_tables. facts ltac:(first [reflexivity | assumption | ring]).
Qed.
Lemma ball_changes m p s T Ds : length p = 1 -> (forall i, i < n_derivatives s -> at2 (direction s i) 0 2 = 0%Qc /\ at2 (direction s i) 0 3 = 0%Qc) ->
  ellips_create m (Some p) (Some s) = Made T Ds -> right_rates 3 (fun p => splines_of (ellips_create m (Some p) None)) p s T Ds.
Proof.
  intros L R H. eapply void_changes; eauto.
  - unfold sphere_points. repeat constructor; eauto.
  - intros. all_bez.
  - intros t A B C LA LB LC G. do 28 (destruct A as [|? A]; try discriminate LA). do 28 (destruct B as [|? B]; try discriminate LB). do 28 (destruct C as [|? C]; try discriminate LC).
    clear LA LB LC. cbn [seq length sphere_points] in G. each. clear. reduce_tables. facts ltac:(first [reflexivity | assumption | ring]).
Qed.
