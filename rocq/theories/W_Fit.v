(** Witnesses and assembly of the theorems of T_Fit. *)
From Coq Require Import List Arith ZArith Lia Bool QArith Qcanon.
From Verif Require Import Base BaseQc S_Grid S_Spline P_Spline S_Value P_Value M_Core S_Core P_Core S_Solve M_Solve P_Solve
  M_Create M_Fit S_Fit P_FitLs P_FitSurf P_FitCurve P_Fit P_FitPlaced.
Import ListNotations.
Local Open Scope list_scope.
Local Open Scope nat_scope.

Lemma C49_knots_holds :
  forall p n u m, p < n -> n <= m -> length u = m -> (m = n -> 0 < p) ->
  non_decreasing u -> Forall (fun x => (0 <= x)%Qc /\ (x <= 1)%Qc) u ->
  exists kv, compute_knot_vector p n u m = Some kv /\ unit_knots p n kv.
Proof.
  intros p n u m Hp Hn L Hz M F. destruct (computed_knots p n u m Hp Hn L Hz) as (kv & E & U & _); [|eauto].
  split; auto. intros i Hi. rewrite Forall_forall in F. apply F, nth_In, Hi.
Qed.

Lemma C49_parameters_holds :
  forall O centripetal n dim lines, measuring O -> lines <> [] ->
  (forall l, In l lines -> length l = n /\ Forall (fun p => length p = dim) l /\ spread l) ->
  exists u, axis_parameters O centripetal n lines = Some (map Some u) /\ length u = n /\ unit_parameters u /\
    ((forall l, In l lines -> moving l) -> increasing u).
Proof.
  intros O c n dim lines Me Hne H. destruct (parameters_ok O Me c n dim lines Hne H) as (u & E & L & _ & U & I). eauto.
Qed.

Lemma C49_curve_holds :
  forall O limit scipy pts dim p n_cp n centripetal ends s r, measuring O -> 1 <= limit -> 0 < dim ->
  Forall (fun q => length q = dim) pts -> spread pts -> p < n -> n <= length pts -> (n = length pts -> 0 < p) ->
  (n_cp = Some (Z.of_nat n) \/ (n_cp = None /\ n = length pts)) ->
  curve O limit scipy pts (Some (Z.of_nat p)) n_cp None None None centripetal ends = Fitted s r ->
  exists kv, sp_axes s = [KnotAxis p kv] /\ unit_knots p n kv /\ sp_weights s = None.
Proof.
  intros O limit scipy pts dim p ncp n c ends s r Me Hl Hd F Sd Hp Hn Hz Hc E.
  destruct (default_curve O limit scipy pts dim p ncp n c ends Me Hl Hd F Sd Hp Hn Hz Hc) as (u & kv & _ & _ & _ & _ & _ & K & _ & E').
  rewrite E' in E. apply fitted_axes in E as [E1 E2]. exists kv. split; [exact E1|]. split; auto.
Qed.

Definition four_points : mat := [[0; 1]; [1; 1]; [qc 2 1; 1]; [qc 3 1; 1]]%Qc.

Definition six_points : mat := [[0; 0]; [1; 0]; [1; 1]; [qc 3 1; 1]; [qc 3 1; 0]; [qc 4 1; 0]]%Qc.

Lemma C49_example_holds :
  measuring exact_oracles /\ spread six_points /\
  axis_parameters exact_oracles false 6 [six_points] = Some (map Some [0; qc 1 6; qc 1 3; qc 2 3; qc 5 6; 1]%Qc) /\
  compute_knot_vector 2 4 [0; qc 1 6; qc 1 3; qc 2 3; qc 5 6; 1]%Qc 6 = Some [0; 0; 0; qc 1 3; 1; 1; 1]%Qc /\
  compute_knot_vector 2 6 [0; qc 1 6; qc 1 3; qc 2 3; qc 5 6; 1]%Qc 6 = Some [0; 0; 0; qc 1 4; qc 1 2; qc 3 4; 1; 1; 1]%Qc.
Proof.
  split; [exact exact_measuring|]. split; [exists 0; split; [cbn; lia|discriminate]|].
  split; [vm_compute; reflexivity|]. split; vm_compute; reflexivity.
Qed.

Lemma C49_length_partial_holds :
  forall O limit scipy pts d n_cp kv given queries centripetal ends,
  curve O limit scipy pts (Some d) n_cp (Some kv) given queries centripetal ends =
  curve O limit scipy pts (Some d) (Some (Z.of_nat (length kv) - d - 1)%Z) None given queries centripetal ends.
Proof.
  intros. unfold curve, default_spline. assert (forall m, validated m (Some d) n_cp (Some kv) =
    validated m (Some d) (Some (Z.of_nat (length kv) - d - 1)%Z) None) as E.
  { intros m. unfold validated. replace (Z.of_nat (length kv) - (Z.of_nat (length kv) - d - 1) - 1)%Z with d by lia. reflexivity. }
  destruct (match queries with Some q => _ | None => _ end) as [us|]; auto. destruct (all_some us); auto. destruct given; auto.
  now rewrite E.
Qed.

Lemma C49_request_refuted_holds :
  exists pts kv s r, unit_knots 2 4 kv /\ moving pts /\
    curve exact_oracles 10 true pts (Some 2%Z) None (Some kv) None None true true = Fitted s r /\
    sp_axes s <> [KnotAxis 2 kv].
Proof.
  exists four_points, [0; 0; 0; qc 1 4; 1; 1; 1]%Qc.
  destruct (curve exact_oracles 10 true four_points (Some 2%Z) None (Some [0; 0; 0; qc 1 4; 1; 1; 1]%Qc) None None true true) as [s r| |] eqn:E;
    [|vm_compute in E; discriminate E..].
  exists s, r. split; [|split; [|split; [reflexivity|]]].
  - split; [reflexivity|]. split; [|split].
    + intros i j Hij Hj. cbn [length] in Hj.
      do 7 (destruct j as [|j]; [do 7 (destruct i as [|i]; [try lia; cbn [nth]; unfold Qcle, Qle; vm_compute; discriminate|]); lia|]). lia.
    + intros i Hi. do 3 (destruct i as [|i]; [reflexivity|]). lia.
    + intros i [H1 H2]. do 4 (destruct i as [|i]; [lia|]). do 3 (destruct i as [|i]; [reflexivity|]). lia.
  - intros i Hi. cbn in Hi. do 3 (destruct i as [|i]; [discriminate|]). lia.
  - vm_compute in E. injection E as <- _. intro K. vm_compute in K. discriminate K.
Qed.

Lemma C49_constant_refuted_holds :
  forall O limit scipy pts dim centripetal ends, measuring O -> Forall (fun q => length q = dim) pts -> spread pts ->
  curve O limit scipy pts (Some 0%Z) None None None None centripetal ends = Refused.
Proof.
  intros O limit scipy pts dim c ends Me F Sd.
  destruct (parameters_ok O Me c (length pts) dim [pts]) as (u & E & Lu & H2 & U & Inc); [discriminate| |].
  { intros l [<-|[]]. auto. }
  rewrite curve_eq with (us := u); [|unfold curve_queries; rewrite E; apply all_some_some].
  unfold default_spline, validated. destruct (Z.leb_spec (Z.of_nat (length pts)) 0); [lia|]. rewrite Z.ltb_irrefl.
  cbn [Z.ltb Z.compare]. unfold compute_knot_vector. now rewrite Nat2Z.id, Nat.eqb_refl.
Qed.

Lemma C49_constant_example_holds : unit_knots 0 4 [0; qc 1 3; qc 2 3; qc 3 4; 1]%Qc /\ spread four_points.
Proof.
  split.
  - split; [reflexivity|]. split; [|split].
    + intros i j Hij Hj. cbn [length] in Hj.
      do 5 (destruct j as [|j]; [do 5 (destruct i as [|i]; [try lia; cbn [nth]; unfold Qcle, Qle; vm_compute; discriminate|]); lia|]). lia.
    + intros i Hi. destruct i as [|i]; [reflexivity|lia].
    + intros i [H1 H2]. do 4 (destruct i as [|i]; [lia|]). destruct i as [|i]; [reflexivity|lia].
  - exists 0. split; [cbn; lia|discriminate].
Qed.

Lemma C49_still_refuted_holds :
  forall scipy p centripetal ends, curve exact_oracles 10 scipy [[0; 1]; [0; 1]; [0; 1]]%Qc (Some p) None None None None centripetal ends = Undefined.
Proof. intros scipy p [] []; vm_compute; reflexivity. Qed.

Lemma C65_best_holds :
  forall O limit scipy s pts us dim degree n_cp kv centripetal ends, solving O ->
  curve_shape s -> 1 <= length (sp_cps s) -> shaped (length us) dim pts -> determined s us ->
  (ends = false \/ length (sp_cps s) = length pts) ->
  exists s' r,
    curve O limit scipy pts degree n_cp kv (Some s) (Some us) centripetal ends = Fitted s' r /\ same_space s s' /\
    (forall s'', same_space s s'' -> (squared_error dim s' us pts <= squared_error dim s'' us pts)%Qc) /\
    (length (sp_cps s) = length pts -> interpolates dim s' us pts) /\
    r = f_norm O (differences dim s' us pts).
Proof.
  intros O limit scipy s pts us dim degree ncp kv c ends S0 Sh Hn Sp D He.
  rewrite curve_eq with (us := us) by reflexivity. now apply fit_best.
Qed.

Lemma C65_ends_holds :
  forall O limit scipy s pts us dim degree n_cp kv centripetal, solving O ->
  end_ready s us -> 2 <= length (sp_cps s) -> shaped (length us) dim pts -> determined s us ->
  let meets s := forall d, d < dim ->
    sp_value s [hd 0%Qc us] d = nth d (hd [] pts) 0%Qc /\ sp_value s [last us 0%Qc] d = nth d (last pts []) 0%Qc in
  exists s' r,
    curve O limit scipy pts degree n_cp kv (Some s) (Some us) centripetal true = Fitted s' r /\ same_space s s' /\
    meets s' /\
    (forall s'', same_space s s'' -> meets s'' -> (squared_error dim s' us pts <= squared_error dim s'' us pts)%Qc) /\
    r = f_norm O (differences dim s' us pts).
Proof.
  intros O limit scipy s pts us dim degree ncp kv c S0 R Hn Sp D. cbv zeta.
  rewrite curve_eq with (us := us) by reflexivity. now apply fit_ends.
Qed.

Lemma C65_reproduces_holds :
  forall O limit scipy s pts us dim degree n_cp kv centripetal ends s', solving O -> fit_ready s us ends ->
  shaped (length us) dim pts -> same_space s s' -> shaped (length (sp_cps s)) dim (sp_cps s') -> interpolates dim s' us pts ->
  exists r, curve O limit scipy pts degree n_cp kv (Some s) (Some us) centripetal ends = Fitted s' r.
Proof.
  intros O limit scipy s pts us dim degree ncp kv c ends s' S0 Rd Sp Ss Sc I.
  rewrite curve_eq with (us := us) by reflexivity. unfold fit_spline. destruct Rd as (Sh & Rd). pose proof Sh as (a & Ea & _).
  rewrite Ea. cbn [length Nat.eqb negb].
  rewrite (line_reproduced O scipy s pts us ends dim s' S0 (conj Sh Rd) Sp Ss Sc I). eexists. f_equal.
  destruct s' as [axes cps ws]. destruct Ss as (E1 & E2 & _). cbn in *. unfold with_cps. now rewrite <- E1, <- E2.
Qed.

Lemma C65_default_holds :
  forall O limit scipy pts dim p n_cp n centripetal, measuring O -> solving O -> 1 <= limit -> 0 < dim ->
  Forall (fun q => length q = dim) pts -> 2 <= length pts -> moving pts ->
  p < n -> 2 <= n -> n <= length pts -> (n = length pts -> 0 < p) ->
  (n_cp = Some (Z.of_nat n) \/ (n_cp = None /\ n = length pts)) ->
  exists u kv,
    axis_parameters O centripetal (length pts) [pts] = Some (map Some u) /\ unit_parameters u /\ increasing u /\
    compute_knot_vector p n u (length pts) = Some kv /\ unit_knots p n kv /\
    let meets s := forall d, d < dim ->
      sp_value s [0%Qc] d = nth d (hd [] pts) 0%Qc /\ sp_value s [1%Qc] d = nth d (last pts []) 0%Qc in
    exists s r, curve O limit scipy pts (Some (Z.of_nat p)) n_cp None None None centripetal true = Fitted s r /\
      sp_axes s = [KnotAxis p kv] /\ length (sp_cps s) = n /\ sp_weights s = None /\ meets s /\
      (forall s', same_space s s' -> meets s' -> (squared_error dim s u pts <= squared_error dim s' u pts)%Qc) /\
      (n = length pts -> interpolates dim s u pts) /\
      r = f_norm O (differences dim s u pts).
Proof.
  intros O limit scipy pts dim p ncp n c Me S0 Hl Hd F Lp Mv Hp Hn2 Hn Hz Hc.
  assert (spread pts) as Sd by (exists 0; split; [lia|apply Mv; lia]).
  destruct (default_curve O limit scipy pts dim p ncp n c true Me Hl Hd F Sd Hp Hn Hz Hc) as (u & kv & E1 & Lu & U & Inc & E2 & K & Cl & E).
  exists u, kv. do 5 (split; [auto|]). cbv zeta. rewrite E.
  set (s := Spl [KnotAxis p kv] (repeat (repeat 0%Qc dim) n) None).
  assert (length (sp_cps s) = n) as Ln by (cbn; apply repeat_length).
  assert (determined s u) as D' by (destruct U as (_ & U0 & U1); apply (computed_determined p n u); auto; rewrite ?Lu; auto).
  assert (end_ready s u) as R by (apply default_ready; auto).
  assert (shaped (length u) dim pts) as Sp by (split; auto).
  assert (hd 0%Qc u = 0%Qc /\ last u 0%Qc = 1%Qc) as [U0 U1]. { destruct U as (_ & U0 & U1). split; auto. rewrite <- U0. now destruct u. }
  destruct (fit_ends O scipy s pts u dim S0 R Sp D' ltac:(lia)) as (s' & r & F1 & F2 & F3 & F4 & F5).
  rewrite U0, U1 in *. exists s', r. split; auto. pose proof F2 as (G1 & G2 & G3). split; auto. split; [congruence|]. split; auto. split; auto.
  split; [|split; auto].
  - intros s'' (H1 & H2 & H3). apply F4. split; [congruence|split; congruence].
  - intros En. destruct (fit_best O scipy s pts u true dim S0 (ready_shape s u R) Sp D' ltac:(lia) ltac:(right; congruence)) as (s2 & r2 & B1 & _ & _ & B2 & _).
    rewrite F1 in B1. injection B1 as <- _. apply B2. congruence.
Qed.

Definition six_parameters : list Qc := [0; qc 1 6; qc 1 3; qc 2 3; qc 5 6; 1]%Qc.

Definition six_space : spline := Spl [KnotAxis 2 [0; 0; 0; qc 1 3; 1; 1; 1]%Qc] (repeat [0%Qc] 4) None.

Definition pseudo_inverse (a : mat) : mat := exact_lstsq a (map (fun i => map (fun j => if i =? j then 1%Qc else 0%Qc) (seq 0 (length a))) (seq 0 (length a))).

Lemma C65_example_holds :
  solving exact_oracles /\ measuring exact_oracles /\ moving six_points /\ determined six_space six_parameters /\
  end_ready six_space six_parameters /\
  exists s r, curve exact_oracles 10 true six_points (Some 2%Z) (Some 4%Z) None None None false true = Fitted s r /\
    sp_cps s <> [] /\ r <> 0%Qc /\ sp_value s [1%Qc] 0 = qc 4 1.
Proof.
  assert (unit_knots 2 4 [0; 0; 0; qc 1 3; 1; 1; 1]%Qc) as K.
  { split; [reflexivity|]. split; [|split].
    + intros i j Hij Hj. cbn [length] in Hj.
      do 7 (destruct j as [|j]; [do 7 (destruct i as [|i]; [try lia; cbn [nth]; unfold Qcle, Qle; vm_compute; discriminate|]); lia|]). lia.
    + intros i Hi. do 3 (destruct i as [|i]; [reflexivity|]). lia.
    + intros i [H1 H2]. do 4 (destruct i as [|i]; [lia|]). do 3 (destruct i as [|i]; [reflexivity|]). lia. }
  split; [exact exact_solving|]. split; [exact exact_measuring|].
  split; [intros i Hi; cbn in Hi; do 5 (destruct i as [|i]; [discriminate|]); lia|].
  split.
  { apply left_inverse with (L := pseudo_inverse (coefficient_matrix six_space six_parameters)).
    - eexists. split; [reflexivity|]. reflexivity.
    - vm_compute. reflexivity. }
  split.
  { eexists. split; [reflexivity|]. split; [reflexivity|]. split; [apply (unit_axis 2 4); auto; lia|].
    split; [repeat split; try reflexivity; vm_compute; reflexivity|]. split; [exact I|]. split; reflexivity. }
  destruct (curve exact_oracles 10 true six_points (Some 2%Z) (Some 4%Z) None None None false true) as [s r| |] eqn:E;
    [|vm_compute in E; discriminate E..].
  exists s, r. split; [reflexivity|]. vm_compute in E. injection E as <- <-. split; [discriminate|]. split; [discriminate|]. vm_compute. reflexivity.
Qed.

Definition halting : mat := [[0; 0]; [1; 0]; [1; 0]; [1; 1]]%Qc.

Lemma C65_repeated_refuted_holds :
  exists axes a b, spread halting /\ Forall (fun q => length q = 2) halting /\ singular a /\
    forall solve lstsq, exists r,
    curve (FitOracles (f_norm exact_oracles) (f_sqrt exact_oracles) solve lstsq) 10 true halting (Some 1%Z) None None None None true true =
    Fitted (Spl axes (solve a b) None) r.
Proof.
  set (u := [0; qc 1 2; qc 1 2; 1]%Qc). set (s := default_spline 10 4 2 (Some 1%Z) None None u). set (m := coefficient_matrix (match s with Some s => s | None => Spl [] [] None end) u).
  exists [KnotAxis 1 [0; 0; qc 1 2; qc 1 2; 1; 1]%Qc], (mat_mul 4 (transposed 4 m) m), (mat_mul 2 (transposed 4 m) halting).
  split; [exists 0; split; [cbn; lia|discriminate]|]. split; [repeat constructor|]. split.
  - exists [0; 1; 0; 0]%Qc. split; [|exists 1; split; [vm_compute; lia|discriminate]]. split; [vm_compute; reflexivity|]. intros r Hr. change (r < 4) in Hr. do 4 (destruct r as [|r]; [apply Qc_is_canon; vm_compute; reflexivity|]). lia.
  - intros solve lstsq. set (O := FitOracles _ _ _ _). assert (axis_parameters O true 4 [halting] = Some (map Some u)) as E by (vm_compute; reflexivity).
    rewrite curve_eq with (us := u) by (unfold curve_queries; change (length halting) with 4; rewrite E; apply all_some_some). change (dim_of halting) with 2. change (length halting) with 4. fold s.
    destruct s as [s0|] eqn:Es; [|exfalso; unfold s in Es; vm_compute in Es; discriminate Es].
    assert (sp_axes s0 = [KnotAxis 1 [0; 0; qc 1 2; qc 1 2; 1; 1]%Qc] /\ sp_weights s0 = None /\ length (sp_cps s0) = 4) as (Ea & Ew & Ec).
    { unfold s in Es. vm_compute in Es. injection Es as <-. split; [|split; reflexivity]. vm_compute. repeat (f_equal; try (apply Qc_is_canon; reflexivity)). }
    unfold fit_spline. rewrite Ea. cbn [length Nat.eqb negb]. unfold fitted_points. rewrite Ec. change (dim_of halting) with 2. change (length halting) with 4. cbn [length u Nat.eqb negb andb].
    eexists. unfold with_cps. rewrite Ea, Ew. unfold solved. reflexivity.
Qed.

Lemma C66_reproduces_holds :
  forall O limit scipy s su sv us vs dim pts degrees n_cps kvs centripetal ends s', solving O ->
  row_of s = Some (su, sv) -> separable s -> fit_ready su us ends -> fit_ready sv vs ends ->
  shaped (length us * length vs) dim pts -> same_space s s' -> shaped (length (sp_cps s)) dim (sp_cps s') ->
  interpolates_grid dim s' us vs pts ->
  surface O limit scipy pts (length us) (length vs) degrees n_cps kvs (Some s) (Some (us, vs)) centripetal ends = Some s'.
Proof.
  intros O limit scipy s su sv us vs dim pts degrees ncps kvs c ends s' S0 Er Se Ru Rv Sp Ss Sc I.
  destruct (separable_directions s Se) as (su' & sv' & Er' & Dr). rewrite Er in Er'. injection Er' as <- <-.
  rewrite surface_given with (su := su) (sv := sv) by auto. destruct Se as (a & b & Ea & L & _).
  pose proof Ss as (E1 & E2 & E3). destruct s' as [axes cps ws]. cbn [sp_axes sp_weights sp_cps] in *. subst axes ws.
  rewrite (surface_reproduced O scipy s su sv us vs ends dim pts a b S0 Ea Dr Ru Rv Sp cps); auto. now rewrite <- L.
Qed.

Lemma C66_interpolates_holds :
  forall O limit scipy s su sv us vs dim pts degrees n_cps kvs centripetal ends, solving O ->
  row_of s = Some (su, sv) -> separable s -> fit_ready su us ends -> fit_ready sv vs ends ->
  length (sp_cps su) = length us -> length (sp_cps sv) = length vs -> shaped (length us * length vs) dim pts ->
  exists s',
    surface O limit scipy pts (length us) (length vs) degrees n_cps kvs (Some s) (Some (us, vs)) centripetal ends = Some s' /\
    same_space s s' /\ interpolates_grid dim s' us vs pts.
Proof.
  intros O limit scipy s su sv us vs dim pts degrees ncps kvs c ends S0 Er Se Ru Rv Lu Lv Sp.
  destruct (separable_directions s Se) as (su' & sv' & Er' & Dr). rewrite Er in Er'. injection Er' as <- <-.
  rewrite surface_given with (su := su) (sv := sv) by auto. destruct Se as (a & b & Ea & L & _).
  pose proof (direction_axes s su sv a b Ea Dr) as (Au & Av & Nu & Nv).
  destruct (surface_interpolant O scipy s su sv us vs ends dim pts a b S0 Ea Dr Ru Rv Sp) as (C & Sc & I); try congruence.
  rewrite (surface_reproduced O scipy s su sv us vs ends dim pts a b S0 Ea Dr Ru Rv Sp C); auto.
  exists (with_cps s C). split; [reflexivity|]. split; auto. apply same_space_with. rewrite L. apply Sc.
Qed.

Lemma moving_spread l n : length l = n -> 2 <= n -> moving l -> spread l.
Proof. intros <- L M. exists 0. split; [lia|apply M; lia]. Qed.

Lemma default_line_ready p n u kv dim ends : p < n -> n <= length u -> (length u = n -> 0 < p) -> 2 <= n -> increasing u -> unit_parameters u ->
  compute_knot_vector p n u (length u) = Some kv -> unit_knots p n kv -> ax_clamped (KnotAxis p kv) -> fit_ready (default_line p n kv dim) u ends.
Proof.
  intros Hp Hn Hz H2 Inc U E K Cl. destruct (unit_axis p n kv K) as (N0 & _); [lia|]. pose proof U as (_ & U0 & U1).
  assert (length (sp_cps (default_line p n kv dim)) = n) as L by (cbn; apply repeat_length).
  split; [exists (KnotAxis p kv); split; [reflexivity|congruence]|]. split; [apply (computed_determined p n u); auto; apply repeat_length|]. split; [lia|]. intros _.
  right. split; [apply default_ready; auto|lia].
Qed.

Lemma C66_default_holds :
  forall O limit scipy pts dim size0 size1 p q centripetal ends, measuring O -> solving O -> 2 <= limit -> 0 < dim ->
  shaped (size0 * size1) dim pts ->
  (forall l, In l (lines_u size0 size1 pts) -> moving l) -> (forall l, In l (lines_v size0 size1 pts) -> moving l) ->
  0 < p < size0 -> 0 < q < size1 ->
  exists u v kv0 kv1,
    axis_parameters O centripetal size0 (lines_u size0 size1 pts) = Some (map Some u) /\ unit_parameters u /\
    axis_parameters O centripetal size1 (lines_v size0 size1 pts) = Some (map Some v) /\ unit_parameters v /\
    unit_knots p size0 kv0 /\ unit_knots q size1 kv1 /\
    exists s, surface O limit scipy pts size0 size1 (Some (Z.of_nat p), Some (Z.of_nat q)) (None, None) None None None centripetal ends = Some s /\
      sp_axes s = [KnotAxis p kv0; KnotAxis q kv1] /\ sp_weights s = None /\ shaped (size0 * size1) dim (sp_cps s) /\
      interpolates_grid dim s u v pts.
Proof.
  intros O limit scipy pts dim size0 size1 p q c ends Me S0 Hl Hd Sp Mu Mv Hp Hq.
  assert (forall l, In l (lines_u size0 size1 pts) -> spread l) as Su by (intros l Hx; destruct (lines_u_ok _ _ _ _ Sp l Hx) as [Ll _]; apply (moving_spread l size0); auto; lia).
  assert (forall l, In l (lines_v size0 size1 pts) -> spread l) as Sv by (intros l Hx; destruct (lines_v_ok _ _ _ _ Sp l Hx) as [Ll _]; apply (moving_spread l size1); auto; lia).
  destruct (default_surface O limit scipy pts dim size0 size1 p q None None size0 size1 c ends Me Hl Hd Sp ltac:(lia) ltac:(lia) Su Sv)
    as (u & v & kv0 & kv1 & (E1 & Lu & U) & (E2 & Lv & V) & (C0 & K0) & (C1 & K1) & Iu & Iv & Dr & E); try lia; auto.
  destruct (Iu Mu) as [Iu1 Iu2]. destruct (Iv Mv) as [Iv1 Iv2].
  exists u, v, kv0, kv1. do 6 (split; [auto|]). rewrite E.
  set (su := default_line p size0 kv0 dim) in *. set (sv := default_line q size1 kv1 dim) in *. set (s := Spl _ [] None) in *.
  destruct (unit_axis p size0 kv0 K0) as (N0 & _); [lia|]. destruct (unit_axis q size1 kv1 K1) as (N1 & _); [lia|].
  assert (length (sp_cps su) = size0 /\ length (sp_cps sv) = size1) as [L0 L1] by (cbn; rewrite !repeat_length; auto).
  assert (fit_ready su u ends) as R0 by (apply default_line_ready; rewrite ?Lu; auto; lia).
  assert (fit_ready sv v ends) as R1 by (apply default_line_ready; rewrite ?Lv; auto; lia).
  assert (shaped (length u * length v) dim pts) as Sp' by now rewrite Lu, Lv.
  destruct (surface_interpolant O scipy s su sv u v ends dim pts (KnotAxis p kv0) (KnotAxis q kv1) S0 eq_refl Dr R0 R1 Sp') as (C & Sc & I); try congruence.
  pose proof (surface_reproduced O scipy s su sv u v ends dim pts (KnotAxis p kv0) (KnotAxis q kv1) S0 eq_refl Dr R0 R1 Sp' C Sc I) as Es.
  rewrite Lu, Lv in Es. rewrite Es. exists (with_cps s C). rewrite N0, N1 in Sc. cbn [option_map]. repeat (split; [reflexivity|]). split; auto.
Qed.

Lemma C66_default_reproduces_holds :
  forall O limit scipy pts dim size0 size1 p q n0 n1 centripetal ends, measuring O -> solving O -> 2 <= limit -> 0 < dim ->
  shaped (size0 * size1) dim pts ->
  (forall l, In l (lines_u size0 size1 pts) -> moving l) -> (forall l, In l (lines_v size0 size1 pts) -> moving l) ->
  p < n0 -> 2 <= n0 -> n0 <= size0 -> (n0 = size0 -> 0 < p) -> q < n1 -> 2 <= n1 -> n1 <= size1 -> (n1 = size1 -> 0 < q) ->
  exists u v kv0 kv1,
    axis_parameters O centripetal size0 (lines_u size0 size1 pts) = Some (map Some u) /\ unit_parameters u /\
    axis_parameters O centripetal size1 (lines_v size0 size1 pts) = Some (map Some v) /\ unit_parameters v /\
    unit_knots p n0 kv0 /\ unit_knots q n1 kv1 /\
    forall cps, shaped (n0 * n1) dim cps -> interpolates_grid dim (Spl [KnotAxis p kv0; KnotAxis q kv1] cps None) u v pts ->
      surface O limit scipy pts size0 size1 (Some (Z.of_nat p), Some (Z.of_nat q)) (Some (Z.of_nat n0), Some (Z.of_nat n1)) None None None centripetal ends
        = Some (Spl [KnotAxis p kv0; KnotAxis q kv1] cps None).
Proof.
  intros O limit scipy pts dim size0 size1 p q n0 n1 c ends Me S0 Hl Hd Sp Mu Mv Hp H2 Hn Hz Hp' H2' Hn' Hz'.
  assert (forall l, In l (lines_u size0 size1 pts) -> spread l) as Su by (intros l Hx; destruct (lines_u_ok _ _ _ _ Sp l Hx) as [Ll _]; apply (moving_spread l size0); auto; lia).
  assert (forall l, In l (lines_v size0 size1 pts) -> spread l) as Sv by (intros l Hx; destruct (lines_v_ok _ _ _ _ Sp l Hx) as [Ll _]; apply (moving_spread l size1); auto; lia).
  destruct (default_surface O limit scipy pts dim size0 size1 p q (Some (Z.of_nat n0)) (Some (Z.of_nat n1)) n0 n1 c ends Me Hl Hd Sp ltac:(lia) ltac:(lia) Su Sv)
    as (u & v & kv0 & kv1 & (E1 & Lu & U) & (E2 & Lv & V) & (C0 & K0) & (C1 & K1) & Iu & Iv & Dr & E); try lia; auto.
  destruct (Iu Mu) as [Iu1 Iu2]. destruct (Iv Mv) as [Iv1 Iv2].
  exists u, v, kv0, kv1. do 6 (split; [auto|]). intros cps Sc I. rewrite E.
  set (su := default_line p n0 kv0 dim) in *. set (sv := default_line q n1 kv1 dim) in *.
  destruct (unit_axis p n0 kv0 K0) as (N0 & _); [lia|]. destruct (unit_axis q n1 kv1 K1) as (N1 & _); [lia|].
  assert (fit_ready su u ends) as R0 by (apply default_line_ready; rewrite ?Lu; auto; lia).
  assert (fit_ready sv v ends) as R1 by (apply default_line_ready; rewrite ?Lv; auto; lia).
  assert (shaped (length u * length v) dim pts) as Sp' by now rewrite Lu, Lv.
  pose proof (surface_reproduced O scipy (Spl [KnotAxis p kv0; KnotAxis q kv1] [] None) su sv u v ends dim pts (KnotAxis p kv0) (KnotAxis q kv1) S0 eq_refl Dr R0 R1 Sp' cps) as Es.
  rewrite N0, N1, Lu, Lv in Es. rewrite Es; auto.
Qed.

Definition grid_points : mat :=
  [[0; 0; 1]; [1; 0; 0]; [qc 2 1; 0; 1]; [0; 1; 0]; [1; 1; qc 3 1]; [qc 2 1; 1; 0]; [0; qc 2 1; 1]; [1; qc 2 1; 0]; [qc 2 1; qc 2 1; 1]]%Qc.

Lemma C66_example_holds :
  shaped 9 3 grid_points /\
  (forall l, In l (lines_u 3 3 grid_points) -> moving l) /\ (forall l, In l (lines_v 3 3 grid_points) -> moving l) /\
  exists s, surface exact_oracles 10 true grid_points 3 3 (Some 2%Z, Some 1%Z) (None, None) None None None true true = Some s /\
    map (sp_value s [qc 1 2; qc 1 2]) [0; 1; 2] = [1; 1; qc 3 1]%Qc.
Proof.
  split; [split; [reflexivity|repeat constructor]|].
  split; [intros l Hl; cbn in Hl; repeat (destruct Hl as [<-|Hl]; [intros i Hi; cbn in Hi; do 2 (destruct i as [|i]; [discriminate|]); lia|]); easy|].
  split; [intros l Hl; cbn in Hl; repeat (destruct Hl as [<-|Hl]; [intros i Hi; cbn in Hi; do 2 (destruct i as [|i]; [discriminate|]); lia|]); easy|].
  destruct (surface exact_oracles 10 true grid_points 3 3 (Some 2%Z, Some 1%Z) (None, None) None None None true true) as [s|] eqn:E;
    [|vm_compute in E; discriminate E].
  exists s. split; [reflexivity|]. vm_compute in E. injection E as <-. cbn [map].
  do 3 (apply f_equal2; [apply Qc_is_canon; vm_compute; reflexivity|]). reflexivity.
Qed.

Definition heavy_corner : spline := Spl [BezierAxis 1; BezierAxis 1] (repeat [0%Qc; 0%Qc] 4) (Some [1; 1; 1; qc 2 1]%Qc).

Definition square_points : mat := [[0; 0]; [1; 0]; [0; 1]; [1; 1]]%Qc.

Lemma C66_weights_refuted_holds :
  exists s su sv us vs pts s', row_of s = Some (su, sv) /\ fit_ready su us true /\ fit_ready sv vs true /\
    length (sp_cps su) = length us /\ length (sp_cps sv) = length vs /\ shaped (length us * length vs) 2 pts /\
    Forall (fun w => (0 < w)%Qc) (match sp_weights s with Some w => w | None => [] end) /\
    (exists s'', same_space s s'' /\ interpolates_grid 2 s'' us vs pts) /\
    surface exact_oracles 10 true pts (length us) (length vs) (None, None) (None, None) None (Some s) (Some (us, vs)) true true = Some s' /\
    ~ interpolates_grid 2 s' us vs pts.
Proof.
  assert (fit_ready (Spl [BezierAxis 1] (repeat [0%Qc; 0%Qc] 2) (Some [1%Qc; 1%Qc])) [0%Qc; qc 1 2] true) as R.
  { assert (curve_shape (Spl [BezierAxis 1] (repeat [0%Qc; 0%Qc] 2) (Some [1%Qc; 1%Qc]))) as Sh by (eexists; split; reflexivity).
    split; [exact Sh|]. split; [|split; [cbn; lia|now left]].
    apply left_inverse with (L := pseudo_inverse (coefficient_matrix (Spl [BezierAxis 1] (repeat [0%Qc; 0%Qc] 2) (Some [1%Qc; 1%Qc])) [0%Qc; qc 1 2])); [exact Sh|].
    vm_compute. reflexivity. }
  destruct (surface exact_oracles 10 true square_points 2 2 (None, None) (None, None) None (Some heavy_corner)
    (Some ([0%Qc; qc 1 2], [0%Qc; qc 1 2])) true true) as [s'|] eqn:E; [|vm_compute in E; discriminate E].
  exists heavy_corner, (Spl [BezierAxis 1] (repeat [0%Qc; 0%Qc] 2) (Some [1%Qc; 1%Qc])), (Spl [BezierAxis 1] (repeat [0%Qc; 0%Qc] 2) (Some [1%Qc; 1%Qc])),
    [0%Qc; qc 1 2], [0%Qc; qc 1 2], square_points, s'.
  do 5 (split; [first [reflexivity|exact R]|]). split; [split; [reflexivity|repeat constructor]|].
  split; [repeat constructor|]. split.
  { exists (with_cps heavy_corner [[0; 0]; [qc 2 1; 0]; [0; qc 2 1]; [qc 3 2; qc 3 2]]%Qc). split; [repeat split|].
    intros k l d Hk Hl Hd. cbn [length] in Hk, Hl. destruct k as [|[|k]], l as [|[|l]], d as [|[|d]]; try lia;
      apply Qc_is_canon; vm_compute; reflexivity. }
  split; [exact E|]. intros I. specialize (I 1 1 0). cbn [length] in I.
  vm_compute in E. injection E as <-. specialize (I ltac:(lia) ltac:(lia) ltac:(lia)). vm_compute in I. discriminate I.
Qed.
