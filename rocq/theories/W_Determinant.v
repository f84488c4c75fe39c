(** Witnesses and assembly of the theorems of T_Determinant. *)
From Coq Require Import List Arith ZArith Lia Bool QArith Qcanon Sorted Permutation.
From Verif Require Import Base BaseQc W_KnotInsert S_Grid S_Spline P_Spline S_Value P_Value S_Knots S_Deriv P_Deriv S_Integrate P_Integrate S_Exact P_Exact P_ExactVol S_Solve M_Solve P_Solve M_Grid M_Core M_Knots S_Determinant M_Determinant P_Determinant.
Import ListNotations.
Local Open Scope list_scope.
Local Open Scope nat_scope.

Lemma C70_exact_partial_holds :
  forall solve limit eps tol s knots, linear_solver solve -> sp_wf s -> equal_weights s -> sp_axes s <> [] ->
  length (sp_axes s) <= limit -> (0 < eps)%Qc -> (0 < tol)%Qc ->
  dim_of (sp_cps s) = length (sp_axes s) -> one_kind (sp_axes s) ->
  Forall2 (sampled_axis (length (sp_axes s)) eps tol) (sp_axes s) knots ->
  exists s', determinant_spline solve limit eps tol s = Determinant s' /\ sp_wf s' /\ sp_weights s' = None /\
    Forall (fun p => length p = 1) (sp_cps s') /\
    Forall2 (fun a a' => ax_degree a' = length (sp_axes s) * ax_degree a - 1 /\
                         ax_lower a' = ax_lower a /\ ax_upper a' = ax_upper a) (sp_axes s) (sp_axes s') /\
    forall u, sp_domain s u -> sp_value s' u 0 = jacobian_determinant s u.
Proof. exact determinant_spline_exact. Qed.

Lemma C70_derivatives_partial_holds :
  forall solve limit eps tol s knots J, linear_solver solve -> sp_wf s -> equal_weights s -> sp_axes s <> [] ->
  length (sp_axes s) <= limit -> (0 < eps)%Qc -> (0 < tol)%Qc ->
  dim_of (sp_cps s) = length (sp_axes s) -> one_kind (sp_axes s) ->
  Forall2 (sampled_axis (length (sp_axes s)) eps tol) (sp_axes s) knots -> derivatives s J ->
  exists s', determinant_spline solve limit eps tol s = Determinant s' /\
    forall e u, In e (elements knots) -> within e u -> sp_value s' u 0 = det (length (sp_axes s)) (J u).
Proof.
  intros solve limit eps tol s knots J Sol W E N L He Ht D OK K HJ. destruct (determinant_spline_exact solve limit eps tol s knots) as (s' & R & _ & _ & _ & _ & V); auto. exists s'. split; auto. intros e u He' Wu.
  assert (Forall2 axis_knots (sp_axes s) knots) as AK.
  { clear - K. induction K as [|a us axes knots ((SS & C) & _) K IH]; constructor; [|assumption]. split; [assumption|]. destruct a as [p|p kv]; [assumption|]. destruct C as (m & C1 & C2 & C3 & C4 & C5 & C6 & _). exists m. repeat split; assumption. }
  destruct (element_is_inside _ _ _ _ AK He' Wu) as [In Do]. rewrite (V u Do). unfold jacobian_determinant. apply det_ext. intros i j Hi Hj. apply deriv_is; auto; [|lia].
  unfold positive. unfold equal_weights in E. destruct (sp_weights s) as [ws|]; auto. destruct E as (w & Hw & E). eapply Forall_impl; [|exact E]. now intros x <-.
Qed.

Definition straight_line : spline := Spl [BezierAxis 1] [[0]; [1]]%Qc None.

Lemma C70_degree_zero_refuted_holds :
  forall solve limit eps tol, 1 <= limit -> (0 < eps)%Qc -> (0 < tol)%Qc ->
  sp_wf straight_line /\ dim_of (sp_cps straight_line) = 1 /\ determinant_spline solve limit eps tol straight_line = DetNaN.
Proof.
  intros solve limit eps tol L He Ht. split; [repeat constructor|]. split; [reflexivity|]. unfold determinant_spline, straight_line. cbn [sp_axes sp_cps length dim_of hd Nat.eqb negb].
  assert (det_template limit eps (Spl [BezierAxis 1] [[0]; [1]]%Qc None) = Some (Spl [BezierAxis 0] [[0%Qc]] None)) as ->; [|reflexivity].
  destruct limit as [|limit]; [lia|]. reflexivity.
Qed.

Definition unclamped_curve : spline := Spl [KnotAxis 2 [0; 1; inj 2; inj 3; inj 4; inj 5]%Qc] [[0]; [1]; [inj 2]]%Qc None.

Lemma C70_unclamped_refuted_holds :
  forall solve limit tol, sp_wf unclamped_curve /\ dim_of (sp_cps unclamped_curve) = 1 /\
  determinant_spline solve limit (qc 1 2) tol unclamped_curve = DetRaised.
Proof.
  intros solve limit tol. split; [|split; reflexivity]. split; [|split; [reflexivity|exact I]]. constructor; [|constructor]. apply knot_vector_dec. reflexivity.
Qed.

Definition jump_curve : spline := Spl [KnotAxis 2 [0; 0; 0; 1; 1; 1; inj 2; inj 2; inj 2]%Qc] [[0]; [1]; [inj 2]; [inj 5]; [inj 6]; [inj 7]]%Qc None.

Lemma C70_jump_refuted_holds :
  sp_wf jump_curve /\ dim_of (sp_cps jump_curve) = 1 /\
  exists a b axes, singular a /\ forall solve limit, 1 <= limit ->
    determinant_spline solve limit (qc 1 2) (qc 1 10) jump_curve = Determinant (Spl axes (map (fun x => [x]) (solve a b)) None).
Proof.
  split; [|split; [reflexivity|]].
  { split; [|split; [reflexivity|exact I]]. constructor; [|constructor]. apply knot_vector_dec. reflexivity. }
  assert (forall limit, 1 <= limit -> det_template limit (qc 1 2) jump_curve = det_template 1 (qc 1 2) jump_curve) as E by (intros [|limit] H; [lia|reflexivity]).
  destruct (det_template 1 (qc 1 2) jump_curve) as [t|] eqn:Et; [|exfalso; vm_compute in Et; discriminate Et].
  assert (sp_axes t = [KnotAxis 1 [0; 0; 1; 1; 1; inj 2; inj 2]%Qc] /\ sp_weights t = None) as [Ea Ew].
  { vm_compute in Et. injection Et as <-. split; [|reflexivity]. vm_compute. repeat (f_equal; try (apply Qc_is_canon; reflexivity)). }
  set (g := match greville (KnotAxis 1 [0; 0; 1; 1; 1; inj 2; inj 2]%Qc) (qc 1 10) with Some g => g | None => [] end).
  exists (map (fun x => basis_row (sp_axes t) [x]) g), (map (fun x => det 1 (fun d j => sp_deriv jump_curve j [x] d)) g), (sp_axes t). split.
  - exists [0; 0; 1; 0; 0]%Qc. rewrite Ea. split; [|exists 2; split; [vm_compute; lia|discriminate]]. split; [vm_compute; reflexivity|].
    intros r Hr. change (r < 5) in Hr. do 5 (destruct r as [|r]; [apply Qc_is_canon; vm_compute; reflexivity|]). lia.
  - intros solve limit H. unfold determinant_spline. rewrite (E limit H), Ea, Ew. vm_compute. reflexivity.
Qed.

Definition patch : spline := Spl [BezierAxis 1; BezierAxis 1] [[0; 0]; [inj 2; 0]; [0; 1]; [inj 3; inj 2]]%Qc None.

Definition bend : spline := Spl [KnotAxis 2 [0; 0; 0; qc 1 2; 1; 1; 1]%Qc] [[0]; [1]; [inj 2]; [inj 4]]%Qc None.

Definition gauss (a : list (list Qc)) (b : list Qc) : list Qc := match solve a (seq 0 (length a)) b with Some x => x | None => [] end.

Definition det_points (r : det_result) : list (list Qc) := match r with Determinant s => sp_cps s | _ => [] end.

Lemma C70_example_holds :
  linear_solver gauss /\
  (sp_wf patch /\ equal_weights patch /\ dim_of (sp_cps patch) = 2 /\ one_kind (sp_axes patch) /\
   Forall2 (sampled_axis 2 (qc 1 100) (qc 1 100)) (sp_axes patch) [[0; 1]; [0; 1]]%Qc /\
   det_points (determinant_spline gauss 3 (qc 1 100) (qc 1 100) patch) = [[inj 2]; [inj 4]; [inj 3]; [inj 5]]) /\
  (sp_wf bend /\ equal_weights bend /\ dim_of (sp_cps bend) = 1 /\ one_kind (sp_axes bend) /\
   Forall2 (sampled_axis 1 (qc 1 100) (qc 1 100)) (sp_axes bend) [[0; qc 1 2; 1]]%Qc /\
   det_points (determinant_spline gauss 3 (qc 1 100) (qc 1 100) bend) = [[inj 4]; [inj 2]; [inj 8]]).
Proof.
  split; [|split].
  - intros a b _ _ R. unfold gauss. destruct (solve_regular a (seq 0 (length a)) b (Permutation_refl _) R) as (x & -> & X). exact X.
  - split; [repeat constructor|]. split; [exact I|]. split; [reflexivity|]. split; [left; intros a [<-|[<-|[]]]; eauto|]. split.
    + assert (sampled_axis 2 (qc 1 100) (qc 1 100) (BezierAxis 1) [0; 1]%Qc) as X; [|constructor; [exact X|constructor; [exact X|constructor]]].
      split; [split; [repeat (first [apply SSorted_nil|apply SSorted_cons|apply Forall_nil|apply Forall_cons|reflexivity])|reflexivity]|]. split; [cbn; lia|]. split; [|exact I]. intros x y [<-|[<-|[]]] [<-|[<-|[]]]; auto; right; discriminate.
    + vm_compute. repeat (f_equal; try (apply Qc_is_canon; reflexivity)).
  - split.
    { split; [|split; [reflexivity|exact I]]. constructor; [|constructor]. apply knot_vector_dec. reflexivity. }
    split; [exact I|]. split; [reflexivity|]. split; [right; intros a [<-|[]]; eauto|]. split.
    + constructor; [|constructor]. split; [|split; [cbn; lia|split; [|split]]].
      * split; [repeat (first [apply SSorted_nil|apply SSorted_cons|apply Forall_nil|apply Forall_cons|reflexivity])|]. exists [3; 1; 3]. split; [reflexivity|]. split; [reflexivity|]. split; [cbn; lia|]. split; [reflexivity|]. split; [reflexivity|]. split; [repeat (apply Forall_cons; [lia|]); apply Forall_nil|]. intros c C1 C2. cbn [length] in C2. replace c with 1 by lia. cbn. lia.
      * intros x y [<-|[<-|[<-|[]]]] [<-|[<-|[<-|[]]]]; auto; right; discriminate.
      * intros c Hc. cbn [length] in Hc. do 2 (destruct c as [|c]; [discriminate|]). lia.
      * repeat (apply Forall_cons; [discriminate|]). apply Forall_nil.
    + vm_compute. repeat (f_equal; try (apply Qc_is_canon; reflexivity)).
Qed.

Lemma C71_bound_holds :
  forall solve limit eps tol s knots s' c, linear_solver solve -> sp_wf s -> equal_weights s -> sp_axes s <> [] ->
  length (sp_axes s) <= limit -> (0 < eps)%Qc -> (0 < tol)%Qc ->
  dim_of (sp_cps s) = length (sp_axes s) -> one_kind (sp_axes s) ->
  Forall2 (sampled_axis (length (sp_axes s)) eps tol) (sp_axes s) knots ->
  determinant_spline solve limit eps tol s = Determinant s' ->
  Forall (fun p => (c < nth 0 p 0)%Qc) (sp_cps s') ->
  forall u, sp_domain s u -> (c < jacobian_determinant s u)%Qc.
Proof.
  intros solve limit eps tol s knots s' c Sol W E N L He Ht D OK K R F u Hu. destruct (determinant_spline_exact solve limit eps tol s knots) as (s2 & R2 & W2 & E2 & _ & A2 & V); auto. rewrite R in R2. injection R2 as <-.
  rewrite <- (V u Hu). apply value_above; auto. unfold sp_domain in *. clear - Hu A2. revert u Hu. induction A2 as [|a a' axes axes' (_ & Al & Au) A2 IH]; intros u Hu; inversion Hu; subst; constructor; [|now apply IH].
  unfold ax_domain in *. now rewrite Al, Au.
Qed.

Definition straight_cubic : spline := Spl [BezierAxis 3] [[0]; [qc 1 3]; [qc 1 6]; [qc 1 2]]%Qc None.

Definition folded_cubic : spline := Spl [BezierAxis 3] [[0]; [qc 1 3]; [qc (-1) 3]; [0]]%Qc None.

Lemma C71_undecided_holds :
  forall solve limit eps tol, linear_solver solve -> 1 <= limit -> (0 < eps)%Qc -> (eps <= 1)%Qc -> (0 < tol)%Qc ->
  (exists s', determinant_spline solve limit eps tol straight_cubic = Determinant s' /\ (nth 0 (nth 1 (sp_cps s') []) 0 < 0)%Qc /\
     forall u, sp_domain straight_cubic u -> (0 < jacobian_determinant straight_cubic u)%Qc) /\
  (exists s' u, determinant_spline solve limit eps tol folded_cubic = Determinant s' /\ (nth 0 (nth 1 (sp_cps s') []) 0 < 0)%Qc /\
     sp_domain folded_cubic u /\ (jacobian_determinant folded_cubic u < 0)%Qc).
Proof.
  intros solve limit eps tol Sol L He He1 Ht.
  assert (sampled_axis 1 eps tol (BezierAxis 3) [0; 1]%Qc) as X.
  { split; [split; [repeat (first [apply SSorted_nil|apply SSorted_cons|apply Forall_nil|apply Forall_cons|reflexivity])|reflexivity]|]. split; [cbn; lia|]. split; [|exact I]. intros x y [<-|[<-|[]]] [<-|[<-|[]]]; auto; right; exact He1. }
  assert (forall p, sp_wf (Spl [BezierAxis 3] p None) -> dim_of p = 1 -> exists s', determinant_spline solve limit eps tol (Spl [BezierAxis 3] p None) = Determinant s' /\ (forall u, sp_domain (Spl [BezierAxis 3] p None) u -> sp_value s' u 0 = jacobian_determinant (Spl [BezierAxis 3] p None) u) /\ exists x y z, sp_cps s' = [[x]; [y]; [z]] /\ sp_axes s' = [BezierAxis 2] /\ sp_weights s' = None) as G.
  { intros p W D. destruct (determinant_spline_exact solve limit eps tol (Spl [BezierAxis 3] p None) [[0; 1]%Qc]) as (s' & R & (W' & Lc & _) & Ew & F1 & A & V); try assumption; try exact I; [discriminate|left; intros a [<-|[]]; eauto|constructor; [exact X|constructor]|]. exists s'. split; auto. split; auto.
    cbn [sp_axes length] in A. inversion A as [|? a' ? axes' (Da & _ & _) A']; subst. inversion A'; subst.
    assert (a' = BezierAxis 2) as Ea.
    { unfold determinant_spline in R. cbn [sp_axes sp_cps length] in R. rewrite D in R. cbn [Nat.eqb negb] in R. destruct limit as [|limit]; [lia|].
      assert (det_template (S limit) eps (Spl [BezierAxis 3] p None) = Some (Spl [BezierAxis 2] [[0]; [0]; [0]]%Qc None)) as T by (unfold det_template; cbn [sp_cps]; rewrite D; reflexivity). rewrite T in R.
      cbn [sp_axes map all_some] in R. destruct (greville (BezierAxis 2) tol); [|discriminate R]. destruct (cartesian_product _ true); [|discriminate R]. injection R as <-. cbn [sp_axes] in H1. now injection H1. }
    subst a'. unfold sp_res in Lc. rewrite <- H1 in Lc. cbn in Lc. destruct (sp_cps s') as [|x [|y [|z [|w r]]]]; try discriminate Lc. inversion_clear F1 as [|? ? F2 F3]. inversion_clear F3 as [|? ? F4 F5]. inversion_clear F5 as [|? ? F6 _].
    destruct x as [|x [|]]; try discriminate F2. destruct y as [|y [|]]; try discriminate F4. destruct z as [|z [|]]; try discriminate F6. exists x, y, z. auto. }
  assert (forall x y z t, sp_value (Spl [BezierAxis 2] [[x]; [y]; [z]] None) [t] 0 = ((1 - t) * (1 - t) * x + inj 2 * t * (1 - t) * y + t * t * z)%Qc) as Q by (intros; cbn; unfold bernstein; cbn; change (inj 1) with 1%Qc; ring).
  assert (forall p t, (0 <= t)%Qc -> (t <= 1)%Qc -> sp_domain (Spl [BezierAxis 3] p None) [t]) as Dom by (intros; constructor; [split; assumption|constructor]).
  set (h := qc 1 6). assert (E6 : ((1 + 1 + 1 + 1 + 1 + 1) * h = 1)%Qc) by (apply Qc_is_canon; reflexivity).
  assert (E3 : (qc 1 3 = (1 + 1) * h)%Qc) by (apply Qc_is_canon; reflexivity). assert (E3' : (qc (-1) 3 = - (1 + 1) * h)%Qc) by (apply Qc_is_canon; reflexivity). assert (E2 : (qc 1 2 = (1 + 1 + 1) * h)%Qc) by (apply Qc_is_canon; reflexivity).
  assert (I3 : inj 3 = (1 + 1 + 1)%Qc) by (apply Qc_is_canon; reflexivity). assert (I2 : inj 2 = (1 + 1)%Qc) by (apply Qc_is_canon; reflexivity).
  assert (C1 : forall t, jacobian_determinant straight_cubic [t] = ((1 - t) * (1 - t) - t * (1 - t) + t * t)%Qc).
  { intros t. replace ((1 - t) * (1 - t) - t * (1 - t) + t * t)%Qc with ((1 + 1 + 1 + 1 + 1 + 1) * h * ((1 - t) * (1 - t) - t * (1 - t) + t * t))%Qc by (rewrite E6; ring).
    unfold jacobian_determinant, straight_cubic. rewrite E2, E3. fold h. clearbody h. unfold sp_deriv. cbn. unfold dbernstein. cbn [binom]. cbn. rewrite ?I3. change (inj 1) with 1%Qc. ring. }
  assert (C2 : forall t, jacobian_determinant folded_cubic [t] = ((1 - t) * (1 - t) - inj 4 * t * (1 - t) + t * t)%Qc).
  { intros t. replace (inj 4) with (1 + 1 + 1 + 1)%Qc by (apply Qc_is_canon; reflexivity). replace ((1 - t) * (1 - t) - (1 + 1 + 1 + 1) * t * (1 - t) + t * t)%Qc with ((1 + 1 + 1 + 1 + 1 + 1) * h * ((1 - t) * (1 - t) - (1 + 1 + 1 + 1) * t * (1 - t) + t * t))%Qc by (rewrite E6; ring).
    unfold jacobian_determinant, folded_cubic. rewrite E3, E3'. clearbody h. unfold sp_deriv. cbn. unfold dbernstein. cbn. rewrite ?I3. change (inj 1) with 1%Qc. ring. }
  assert (Mid : forall s' p x y z, sp_cps s' = [[x]; [y]; [z]] -> sp_axes s' = [BezierAxis 2] -> sp_weights s' = None -> (forall u, sp_domain (Spl [BezierAxis 3] p None) u -> sp_value s' u 0 = jacobian_determinant (Spl [BezierAxis 3] p None) u) ->
    jacobian_determinant (Spl [BezierAxis 3] p None) [0%Qc] = x /\ jacobian_determinant (Spl [BezierAxis 3] p None) [1%Qc] = z /\ (x + inj 2 * y + z = inj 4 * jacobian_determinant (Spl [BezierAxis 3] p None) [qc 1 2])%Qc).
  { intros s' p x y z Ec Ea Ew V. assert (s' = Spl [BezierAxis 2] [[x]; [y]; [z]] None) as -> by (destruct s'; cbn in *; congruence). split; [|split].
    - rewrite <- V by (apply Dom; discriminate). rewrite Q. ring.
    - rewrite <- V by (apply Dom; discriminate). rewrite Q. ring.
    - rewrite <- V by (apply Dom; discriminate). rewrite Q. set (k := qc 1 2). assert (Ek : ((1 + 1) * k = 1)%Qc) by (apply Qc_is_canon; reflexivity). replace (inj 4) with ((1 + 1) * (1 + 1))%Qc by (apply Qc_is_canon; reflexivity). replace (1 - k)%Qc with k by (apply Qc_is_canon; reflexivity). rewrite I2.
      replace ((1 + 1) * (1 + 1) * (k * k * x + (1 + 1) * k * k * y + k * k * z))%Qc with (((1 + 1) * k) * ((1 + 1) * k) * (x + (1 + 1) * y + z))%Qc by ring. rewrite Ek. ring. }
  split.
  - destruct (G [[0]; [qc 1 3]; [qc 1 6]; [qc 1 2]]%Qc ltac:(repeat constructor) eq_refl) as (s' & R & V & x & y & z & Ec & Ea & Ew). exists s'. split; [exact R|]. destruct (Mid s' _ x y z Ec Ea Ew V) as (M0 & M1 & M2). fold straight_cubic in M0, M1, M2. rewrite !C1 in M0, M1, M2. split.
    + rewrite Ec. cbn [nth]. assert (y = - qc 1 2)%Qc as ->; [|reflexivity]. assert (x = 1)%Qc as -> by (rewrite <- M0; ring). assert (z = 1)%Qc as -> by (rewrite <- M1; ring). set (w := (inj 4 * _)%Qc) in M2. assert (w = 1)%Qc as Ew' by (apply Qc_is_canon; reflexivity). rewrite Ew' in M2. clear - M2 I2. rewrite I2 in M2.
      assert (qc 1 2 * (1 + 1) = 1)%Qc as H by (apply Qc_is_canon; reflexivity). assert ((1 + 1) * y = - (1))%Qc as H2 by (clear - M2; qlra). transitivity (qc 1 2 * (1 + 1) * y)%Qc; [rewrite H; ring|]. rewrite <- Qcmult_assoc, H2. ring.
    + intros u Hu. inversion Hu as [|? t ? u' _ Hu']; subst. inversion Hu'; subst. rewrite C1. clear. assert (forall y, 0 <= y * y)%Qc as Sq by (intros; qnra). specialize (Sq ((1 + 1) * t - 1)%Qc). qnra.
  - destruct (G [[0]; [qc 1 3]; [qc (-1) 3]; [0]]%Qc ltac:(repeat constructor) eq_refl) as (s' & R & V & x & y & z & Ec & Ea & Ew). exists s', [qc 1 2]. split; [exact R|]. destruct (Mid s' _ x y z Ec Ea Ew V) as (M0 & M1 & M2). fold folded_cubic in M0, M1, M2. rewrite !C2 in M0, M1, M2. split; [|split; [apply Dom; discriminate|rewrite C2; reflexivity]].
    rewrite Ec. cbn [nth]. assert (x = 1)%Qc as -> by (rewrite <- M0; ring). assert (z = 1)%Qc as -> by (rewrite <- M1; ring). set (w := (inj 4 * _)%Qc) in M2. assert (w = - (1 + 1))%Qc as Ew' by (apply Qc_is_canon; reflexivity). rewrite Ew', I2 in M2. clear - M2. qlra.
Qed.
