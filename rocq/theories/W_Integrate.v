(** Witnesses and assembly of the theorems of T_Integrate. *)
From Coq Require Import List Arith ZArith Lia Bool QArith Qcanon Sorted Permutation.
From Verif Require Import Base BaseQc S_Grid S_Spline P_Spline S_Value P_Value S_Knots S_Pieces S_Deriv P_Deriv M_Core M_Integrate S_Integrate P_View P_IntWitness P_Integrate.
Import ListNotations.
Local Open Scope list_scope.
Local Open Scope nat_scope.

Definition line_one : spline := Spl [KnotAxis 1 [0; 0; 1; 1]%Qc] [[0]; [1]]%Qc None.

Definition line_two : spline := Spl [KnotAxis 1 [0; 0; qc 1 2; 1; 1]%Qc] [[0]; [qc 1 2]; [1]]%Qc None.

Definition line_long : spline := Spl [KnotAxis 1 [0; 0; 1; inj 2; inj 2]%Qc] [[0]; [inj 3]; [inj 4]]%Qc None.

Definition flat_patch : spline := Spl [BezierAxis 1; BezierAxis 1] [[0; 0; 0]; [1; 0; 0]; [0; 1; 0]; [1; 1; 0]]%Qc None.

Lemma C67_volume_holds :
  forall O eps s orders os knots J, gaussian (g_leggauss O) -> rooting (g_sqrt O) -> (0 < eps)%Qc ->
  sp_wf s -> positive s -> sp_axes s <> [] -> length (sp_axes s) <= dim_of (sp_cps s) ->
  Forall2 axis_knots (sp_axes s) knots -> Forall (apart eps) knots ->
  bezier_axes s \/ knotted s /\ bezier_refinement s (g_required O s) knots ->
  derivatives s J -> orders_of s orders os ->
  volume O eps s orders = Some (composite (product_rule (map (unit_rule (g_leggauss O)) os)) knots
    (fun u => measure (g_sqrt O) (length (sp_axes s)) (dim_of (sp_cps s)) (J u))).
Proof.
  intros O eps s orders os knots J G R He W P N L K A H D Ho. destruct (quadrature_some O s orders os G N Ho) as (quad & Eq & Pq).
  rewrite (volume_spec O eps s orders knots J G R He W P N L K A H D quad Eq). f_equal. now apply composite_perm.
Qed.

Lemma C67_derivatives_holds :
  forall s, sp_wf s -> positive s -> exists J, derivatives s J /\
  forall J', derivatives s J' -> forall u d j, Forall2 ax_inside (sp_axes s) u -> d < dim_of (sp_cps s) -> j < length (sp_axes s) -> J' u d j = J u d j.
Proof.
  intros s W P. exists (fun u d j => sp_deriv s j u d). pose proof (spline_derivatives s W P) as D. split; auto.
  intros J' D' u d j I Hd Hj. exact (deriv_unique _ _ _ _ _ 1%Qc eq_refl (fun _ _ => eq_refl) (D' u I d j Hd Hj) (D u I d j Hd Hj)).
Qed.

Lemma C67_affine_holds :
  forall O eps s orders os knots b a, gaussian (g_leggauss O) -> rooting (g_sqrt O) -> (0 < eps)%Qc ->
  sp_wf s -> positive s -> sp_axes s <> [] -> length (sp_axes s) <= dim_of (sp_cps s) ->
  Forall2 axis_knots (sp_axes s) knots -> Forall (apart eps) knots ->
  bezier_axes s \/ knotted s /\ bezier_refinement s (g_required O s) knots ->
  affine s b a -> orders_of s orders os ->
  volume O eps s orders = Some (measure (g_sqrt O) (length (sp_axes s)) (dim_of (sp_cps s)) a *
    fold_right Qcmult 1 (map (fun x => ax_upper x - ax_lower x) (sp_axes s)))%Qc.
Proof. exact volume_affine. Qed.

Lemma C48_computed_holds :
  forall O limit eps s f orders os knots J m, int_contract O -> (0 < eps)%Qc ->
  sp_wf s -> positive s -> sp_axes s <> [] -> length (sp_axes s) <= dim_of (sp_cps s) ->
  Forall2 axis_knots (sp_axes s) knots -> Forall (apart eps) knots ->
  knotted s -> length (sp_axes s) <= limit -> Forall (fun us => qc (-1) 1 <= nth 0 us 0)%Qc knots ->
  derivatives s J -> orders_of s orders os -> (forall u, length (f u) = m) ->
  parametric_function O limit eps s f orders =
  Some (map (fun d => unscaled (product_rule (map (unit_rule (g_leggauss O)) os)) knots
    (fun u => nth d (f u) 0 * measure (g_sqrt O) (length (sp_axes s)) (dim_of (sp_cps s)) (J u))%Qc) (seq 0 m)).
Proof.
  intros O limit eps s f orders os knots J m C He W P N L K A Hk Hl Hlo D Ho Hm. destruct (quadrature_some O s orders os (proj1 C) N Ho) as (quad & Eq & Pq).
  rewrite (function_spec O limit eps s f orders knots J quad C He W P N L K A (or_intror (conj Hk (conj Hl Hlo))) D Eq m Hm).
  f_equal. apply map_ext. intros d. now apply unscaled_perm.
Qed.

Lemma C48_unit_partial_holds :
  forall O limit eps s f orders os knots J m, int_contract O -> (0 < eps)%Qc ->
  sp_wf s -> positive s -> sp_axes s <> [] -> length (sp_axes s) <= dim_of (sp_cps s) ->
  Forall2 axis_knots (sp_axes s) knots -> Forall (apart eps) knots ->
  knotted s -> length (sp_axes s) <= limit -> Forall (fun us => qc (-1) 1 <= nth 0 us 0)%Qc knots ->
  derivatives s J -> orders_of s orders os -> (forall u, length (f u) = m) ->
  Forall (fun us => forall x y, In (x, y) (combine us (tl us)) -> (y - x = 1)%Qc) knots ->
  parametric_function O limit eps s f orders =
  Some (map (fun d => composite (product_rule (map (unit_rule (g_leggauss O)) os)) knots
    (fun u => nth d (f u) 0 * measure (g_sqrt O) (length (sp_axes s)) (dim_of (sp_cps s)) (J u))%Qc) (seq 0 m)).
Proof.
  intros O limit eps s f orders os knots J m C He W P N L K A Hk Hl Hlo D Ho Hm Hu. destruct (quadrature_some O s orders os (proj1 C) N Ho) as (quad & Eq & Pq).
  rewrite (function_spec O limit eps s f orders knots J quad C He W P N L K A (or_intror (conj Hk (conj Hl Hlo))) D Eq m Hm).
  f_equal. apply map_ext. intros d. rewrite (unscaled_perm _ _ _ _ Pq). unfold unscaled, composite. apply qsum_ext. intros e He'. rewrite (unit_sizes knots Hu e He'). ring.
Qed.

Lemma C48_bezier_holds :
  forall O limit eps s f orders os J m, int_contract O -> (0 < eps)%Qc -> (eps < 1)%Qc ->
  sp_wf s -> positive s -> sp_axes s <> [] -> length (sp_axes s) <= dim_of (sp_cps s) ->
  bezier_axes s -> derivatives s J -> orders_of s orders os -> (forall u, length (f u) = m) ->
  parametric_function O limit eps s f orders =
  Some (map (fun d => composite (product_rule (map (unit_rule (g_leggauss O)) os)) (map (fun _ => [0; 1]%Qc) (sp_axes s))
    (fun u => nth d (f u) 0 * measure (g_sqrt O) (length (sp_axes s)) (dim_of (sp_cps s)) (J u))%Qc) (seq 0 m)).
Proof.
  intros O limit eps s f orders os J m C He He1 W P N L Hb D Ho Hm. destruct (quadrature_some O s orders os (proj1 C) N Ho) as (quad & Eq & Pq).
  assert (Forall2 axis_knots (sp_axes s) (map (fun _ => [0; 1]%Qc) (sp_axes s))) as K.
  { clear - Hb. unfold bezier_axes in Hb. induction Hb as [|a axes H Hb IH]; cbn [map]; constructor; auto. destruct H as [p ->]. split; auto. repeat constructor. }
  rewrite (function_spec O limit eps s f orders _ J quad C He W P N L K) with (m := m); auto.
  - f_equal. apply map_ext. intros d. rewrite (unscaled_perm _ _ _ _ Pq). unfold unscaled, composite. apply qsum_ext. intros e He'.
    rewrite (unit_sizes (map (fun _ => [0; 1]%Qc) (sp_axes s))) by (auto; apply Forall_map, Forall_forall; intros a _ x y [E|[]]; injection E as <- <-; ring). ring.
  - apply Forall_map, Forall_forall. intros a _. now apply apart_unit.
Qed.

Lemma C48_constant_holds :
  forall O limit eps s c orders os knots b a, int_contract O -> (0 < eps)%Qc ->
  sp_wf s -> positive s -> sp_axes s <> [] -> length (sp_axes s) <= dim_of (sp_cps s) ->
  Forall2 axis_knots (sp_axes s) knots -> Forall (apart eps) knots ->
  knotted s -> length (sp_axes s) <= limit -> Forall (fun us => qc (-1) 1 <= nth 0 us 0)%Qc knots ->
  affine s b a -> orders_of s orders os ->
  parametric_function O limit eps s (fun _ => [c]) orders =
  Some [c * measure (g_sqrt O) (length (sp_axes s)) (dim_of (sp_cps s)) a * inj (fold_right Nat.mul 1 (map (fun us => length us - 1) knots))%nat]%Qc.
Proof. exact function_constant. Qed.

Definition wf_line_one : sp_wf line_one.
Proof.
  split; [|split; [reflexivity|exact I]]. constructor; [|constructor]. cbn [ax_wf ax_n length Nat.sub]. split; [reflexivity|]. split; [|reflexivity].
  apply P_KnotInsert.nd_sorted. repeat constructor; discriminate.
Qed.

Definition wf_line_two : sp_wf line_two.
Proof.
  split; [|split; [reflexivity|exact I]]. constructor; [|constructor]. cbn [ax_wf ax_n length Nat.sub]. split; [reflexivity|]. split; [|reflexivity].
  apply P_KnotInsert.nd_sorted. repeat constructor; discriminate.
Qed.

Definition affine_two : affine line_two (fun _ => 0%Qc) (fun _ _ => 1%Qc).
Proof.
  intros us d D Hd. inversion D as [|a u l us' Du D']; subst. inversion D'; subst. change (dim_of (sp_cps line_two)) with 1 in Hd. assert (d = 0) as -> by lia.
  pose proof wf_line_two as [W _]. inversion W as [|? ? Wa _]; subst. pose proof (find_span_spec _ _ _ u Wa Du) as Sp. cbn [ax_n length Nat.sub] in Sp.
  unfold sp_value. cbn -[bspline_basis].  unfold bspline_basis. set (s := find_span _ _ _ _) in *. destruct Sp as (S1 & S2 & _). clearbody s.
  assert (s = 1 \/ s = 2) as [-> | ->] by lia.
  all: unfold kn; cbn [basis Nat.eqb Nat.add last app nth]; unfold Qcdiv.
  all: set (i := (/ (qc 1 2 - 0))%Qc); assert (i * qc 1 2 = 1)%Qc as Ei by (apply Qc_is_canon; reflexivity).
  all: set (j := (/ (1 - qc 1 2))%Qc); assert (j * (1 - qc 1 2) = 1)%Qc as Ej by (apply Qc_is_canon; reflexivity).
  all: set (h := qc 1 2) in *; clearbody i j h.
  - transitivity (u * (i * h))%Qc; [ring|]. rewrite Ei. ring.
  - transitivity (u * (j * (1 - h)))%Qc; [ring|]. rewrite Ej. ring.
Qed.

Definition affine_one : affine line_one (fun _ => 0%Qc) (fun _ _ => 1%Qc).
Proof.
  intros us d D Hd. inversion D as [|a u l us' Du D']; subst. inversion D'; subst. change (dim_of (sp_cps line_one)) with 1 in Hd. assert (d = 0) as -> by lia.
  pose proof wf_line_one as [W _]. inversion W as [|? ? Wa _]; subst. pose proof (find_span_spec _ _ _ u Wa Du) as Sp. cbn [ax_n length Nat.sub] in Sp.
  unfold sp_value. cbn -[bspline_basis].  unfold bspline_basis. set (s := find_span _ _ _ _) in *. destruct Sp as (S1 & S2 & _). clearbody s.
  assert (s = 1) as -> by lia. unfold kn; cbn [basis Nat.eqb Nat.add last app nth]; unfold Qcdiv.
  set (i := (/ (1 - 0))%Qc); assert (i = 1)%Qc as -> by (apply Qc_is_canon; reflexivity). ring.
Qed.

Definition knots_one : axis_knots (KnotAxis 1 [0; 0; 1; 1]%Qc) [0; 1]%Qc.
Proof. split; [repeat constructor|]. exists [2; 2]. repeat split; try (cbn; lia). repeat constructor. Qed.

Definition knots_two : axis_knots (KnotAxis 1 [0; 0; qc 1 2; 1; 1]%Qc) [0; qc 1 2; 1]%Qc.
Proof. split; [repeat constructor|]. exists [2; 1; 2]. repeat split; try (cbn; lia). repeat constructor. Qed.

Lemma C48_refine_refuted_holds :
  forall O limit eps, int_contract O -> (0 < eps)%Qc -> (eps <= qc 1 2)%Qc -> 1 <= limit ->
  sp_wf line_one /\ sp_wf line_two /\
  affine line_one (fun _ => 0%Qc) (fun _ _ => 1%Qc) /\ affine line_two (fun _ => 0%Qc) (fun _ _ => 1%Qc) /\
  (forall us, sp_domain line_one us <-> sp_domain line_two us) /\
  parametric_function O limit eps line_one (fun _ => [1%Qc]) None = Some [1%Qc] /\
  parametric_function O limit eps line_two (fun _ => [1%Qc]) None = Some [inj 2].
Proof.
  intros O limit eps C He He1 Hl. split; [apply wf_line_one|]. split; [apply wf_line_two|]. split; [apply affine_one|]. split; [apply affine_two|].
  split; [|split].
  - intros us. split; intros D; inversion D as [|a u l us' Du D']; subst; inversion D'; subst; constructor; auto.
  - rewrite (function_constant O limit eps line_one 1%Qc None [2] [[0; 1]%Qc] (fun _ => 0%Qc) (fun _ _ => 1%Qc) C He wf_line_one I).
    + do 2 f_equal; try (apply Qc_is_canon; reflexivity).
    + discriminate.
    + cbn. lia.
    + constructor; [apply knots_one|constructor].
    + constructor; [|constructor]. apply apart_unit. eapply Qcle_lt_trans; [exact He1|]. reflexivity.
    + constructor; [exact I|constructor].
    + exact Hl.
    + constructor; [|constructor]. discriminate.
    + apply affine_one.
    + split; [reflexivity|]. constructor; [|constructor]. cbn. lia.
  - rewrite (function_constant O limit eps line_two 1%Qc None [2] [[0; qc 1 2; 1]%Qc] (fun _ => 0%Qc) (fun _ _ => 1%Qc) C He wf_line_two I).
    + do 2 f_equal; try (apply Qc_is_canon; reflexivity).
    + discriminate.
    + cbn. lia.
    + constructor; [apply knots_two|constructor].
    + constructor; [|constructor]. intros x y Hx Hy. destruct Hx as [<-|[<-|[<-|[]]]], Hy as [<-|[<-|[<-|[]]]]; auto; right; eapply Qcle_trans; try exact He1; discriminate.
    + constructor; [exact I|constructor].
    + exact Hl.
    + constructor; [|constructor]. discriminate.
    + apply affine_two.
    + split; [reflexivity|]. constructor; [|constructor]. cbn. lia.
Qed.

Lemma C67_example_holds :
  int_contract int_example /\
  (sp_wf line_long /\ positive line_long /\ Forall2 axis_knots (sp_axes line_long) [[0; 1; inj 2]]%Qc /\ apart (qc 1 2) [0; 1; inj 2]%Qc /\
   knotted line_long /\ bezier_refinement line_long (g_required int_example line_long) [[0; 1; inj 2]]%Qc /\ orders_of line_long None [2] /\
   orders_of line_long (Some [3%Z]) [3] /\
   volume int_example (qc 1 2) line_long None = Some (inj 4) /\
   parametric_function int_example 3 (qc 1 2) line_long (fun u => u) None = Some [inj 3]) /\
  (sp_wf flat_patch /\ bezier_axes flat_patch /\ orders_of flat_patch None [2; 2] /\
   volume int_example (qc 1 2) flat_patch None = Some 1%Qc /\
   affine line_two (fun _ => 0%Qc) (fun _ _ => 1%Qc)).
Proof.
  assert (sp_wf line_long) as W.
  { split; [|split; [reflexivity|exact I]]. constructor; [|constructor]. cbn [ax_wf ax_n length Nat.sub]. split; [reflexivity|]. split; [|reflexivity].
    apply P_KnotInsert.nd_sorted. repeat constructor; discriminate. }
  split; [apply int_example_ok|]. split; [split; [exact W|repeat split]|].
  - constructor; [|constructor]. split; [repeat constructor|]. exists [2; 1; 2]. repeat split; try (cbn; lia). repeat constructor.
  - intros x y Hx Hy. destruct Hx as [<-|[<-|[<-|[]]]], Hy as [<-|[<-|[<-|[]]]]; auto; right; discriminate.
  - repeat constructor.
  - apply W.
  - exists [([0; 1; inj 2]%Qc, [2; 1; 2])]. split; [|reflexivity]. constructor; [|constructor].
    exists 1, [0; 0; 1; inj 2; inj 2]%Qc. split; [reflexivity|]. apply (view_bezier [0; 1; inj 2]%Qc); [|cbn; lia]. repeat constructor.
  - cbn. repeat constructor.
  - repeat constructor.
  - vm_compute. do 2 f_equal. apply Qc_is_canon. reflexivity.
  - split; [repeat constructor|]. split; [repeat constructor; eauto|]. split; [|split; [|apply affine_two]].
    + split; [reflexivity|]. cbn. repeat constructor.
    + vm_compute. f_equal. apply Qc_is_canon. reflexivity.
Qed.

