(** Refused values and examples of extracted parts. *)
From Coq Require Import List Arith ZArith Bool QArith Qcanon Lia Sorted.
From Verif Require Import Base BaseRadix BaseQc S_Grid S_Spline S_Value P_Spline M_Numpy M_Grid M_Core M_Extract M_Bezier P_Bezier M_Create S_Core P_Core S_Files P_Files S_Create S_SubSpline M_SubSpline P_SubSpline P_SubRounds P_SubCut P_SubFinal P_SubWitness.
Import ListNotations.
Local Open Scope list_scope.
Local Open Scope nat_scope.

Lemma outside_refused limit tol ins s k a plane x : nth_error (sp_axes s) k = Some a ->
  In x plane -> Forall (fun y => y < x)%Qc (breaks a) \/ Forall (fun y => x < y)%Qc (breaks a) ->
  has_kvs s = match a with BezierAxis _ => false | _ => true end ->
  sub_spline limit tol ins s k plane = None.
Proof.
  intros En Hx H Hk. assert (has_knot_vectors s = has_kvs s) as Eh by (unfold has_knot_vectors, has_kvs; destruct (sp_axes s) as [|[|]]; [now destruct k| |]; reflexivity).
  unfold sub_spline. destruct (_ <? k); auto. destruct (2 <? _); auto.
  assert (nth_error (sp_axes (same_spline_with_knot_vectors s)) k = Some (KnotAxis (ax_degree a) (kv_of a))) as ->.
  { unfold same_spline_with_knot_vectors. rewrite Eh, Hk. destruct a; [cbn [sp_axes]; rewrite nth_error_map, En; reflexivity|exact En]. }
  cbn [ax_degree]. rewrite Nat.add_1_r. cbn [insert_rounds]. set (c := same_spline_with_knot_vectors s).
  replace (insert_knots ins c k plane) with (@None spline); [reflexivity|]. symmetry. unfold insert_knots, c.
  assert (nth_error (sp_axes (same_spline_with_knot_vectors s)) k = Some (KnotAxis (ax_degree a) (kv_of a))) as ->.
  { unfold same_spline_with_knot_vectors. rewrite Eh, Hk. destruct a; [cbn [sp_axes]; rewrite nth_error_map, En; reflexivity|exact En]. }
  cbn [ax_kv]. replace (forallb _ plane) with false; [reflexivity|]. symmetry. apply not_true_is_false. intros F. rewrite forallb_forall in F.
  specialize (F x Hx). apply andb_true_iff in F as [F1 F2]. apply existsb_exists in F1 as (y & Y1 & Y2). apply existsb_exists in F2 as (z & Z1 & Z2).
  apply kv_breaks in Y1, Z1. destruct (qleb_spec x y) as [Y|]; [|discriminate]. destruct (qleb_spec z x) as [Z|]; [|discriminate].
  destruct H as [H|H]; rewrite Forall_forall in H; [specialize (H y Y1); clear - H Y; qlra|specialize (H z Z1); clear - H Z; qlra].
Qed.

Lemma sound_built limit dim s : sp_axes s <> [] -> length (sp_axes s) <= limit -> 0 < dim -> Forall (of_kind (has_kvs s) limit dim) (sp_axes s) ->
  Forall (fun P => length P = dim) (sp_cps s) -> sp_wf s -> match sp_weights s with Some ws => Forall (fun w => 0 < w)%Qc ws | None => True end -> sound limit dim s.
Proof.
  intros N L D K R W P. destruct (build limit dim s (sp_axes s) (sp_cps s) (sp_weights s) N L D K R) as [_ B].
  - apply W.
  - reflexivity.
  - destruct W as (_ & W2 & W3). destruct (sp_weights s); auto. congruence.
  - destruct s. exact (conj B (conj W (conj R P))).
Qed.

Definition sub_axis : paxis := KnotAxis 2 (map inj [0; 0; 0; 1; 2; 2; 2]).
Definition sub_surface : spline := Spl [sub_axis; KnotAxis 1 (map inj [0; 0; 1; 1])]
  (map (map inj) [[0; 0]; [1; 0]; [2; 1]; [4; 0]; [0; 1]; [1; 2]; [2; 2]; [4; 1]]) (Some (map inj [1; 2; 1; 1; 1; 1; 2; 1])).
Definition sub_bezier : spline := Spl [BezierAxis 2; BezierAxis 1] (map (map inj) [[0; 0]; [1; 1]; [2; 0]; [0; 1]; [1; 2]; [2; 1]]) None.
Definition sub_line : spline := Spl [KnotAxis 1 (map inj [0; 0; 2; 2])] (map (map inj) [[0; 0]; [2; 4]]) None.

Lemma nd_of l : StronglySorted Qcle l -> non_decreasing l. Proof. apply P_KnotInsert.nd_sorted. Qed.
Ltac le_all := repeat (constructor; try (vm_compute; discriminate)).
Ltac knots_ok := split; [reflexivity|split; [split; [lia|split; [apply nd_of; le_all|cbn; lia]]|le_all]].
Ltac axis_ok := split; [reflexivity|split; [apply nd_of; le_all|vm_compute; reflexivity]].
Ltac clamped_ok := cbn; repeat split; reflexivity.
Ltac clear_ok := intros y Hy; repeat (destruct Hy as [<-|Hy]); [..|destruct Hy];
  first [left; apply Qc_is_canon; vm_compute; reflexivity | right; vm_compute; discriminate].
Ltac cut_ok := split; [cbn; lia|]; split; [clamped_ok|]; split; [split; vm_compute; discriminate|]; split; [clear_ok|vm_compute; lia].

Lemma sub_surface_ok :
  sound 10 2 sub_surface /\ nth_error (sp_axes sub_surface) 0 = Some sub_axis /\
  cuttable (qc 1 1000) sub_axis (qc 1 2) /\ cuttable (qc 1 1000) sub_axis 1%Qc /\ cuttable (qc 1 1000) sub_axis (inj 2) /\
  continuous_at sub_axis 1%Qc.
Proof.
  split; [|split; [reflexivity|split; [cut_ok|split; [cut_ok|split; [cut_ok|right; vm_compute; lia]]]]].
  apply sound_built; [discriminate|cbn; lia|lia| |repeat constructor| |repeat constructor].
  - constructor; [knots_ok|constructor; [knots_ok|constructor]].
  - split; [constructor; [axis_ok|constructor; [axis_ok|constructor]]|split; reflexivity].
Qed.
Lemma sub_bezier_ok :
  sound 10 2 sub_bezier /\ nth_error (sp_axes sub_bezier) 1 = Some (BezierAxis 1) /\
  cuttable (qc 1 1000) (BezierAxis 1) (qc 1 4) /\ cuttable (qc 1 1000) (BezierAxis 1) 1%Qc.
Proof.
  split; [|split; [reflexivity|split; [cut_ok|cut_ok]]].
  apply sound_built; [discriminate|cbn; lia|lia| |repeat constructor| |exact I].
  - constructor; [cbn; lia|constructor; [cbn; lia|constructor]].
  - split; [constructor; [exact I|constructor; [exact I|constructor]]|split; [reflexivity|exact I]].
Qed.
Lemma sub_line_ok : sound 10 2 sub_line.
Proof.
  apply sound_built; [discriminate|cbn; lia|lia| |repeat constructor| |exact I].
  - constructor; [knots_ok|constructor].
  - split; [constructor; [axis_ok|constructor]|split; [reflexivity|exact I]].
Qed.
Lemma sub_line_part :
  option_map (fun r => (map ax_kv (sp_axes r), sp_cps r)) (sub_spline 10 (qc 1 1000) insert_one sub_line 0 [qc 1 2; 1%Qc]) =
  Some ([[qc 1 2; qc 1 2; 1; 1]%Qc], [[qc 1 2; 1]; [1; inj 2]]%Qc).
Proof.
  vm_compute. repeat f_equal; apply Qc_is_canon; reflexivity.
Qed.
Lemma curve_refused : exists limit tol ins s a x, raises_multiplicity tol ins /\ sound limit 2 s /\
  sp_axes s = [a] /\ cuttable tol a x /\ sub_spline limit tol ins s 0 [x] = None.
Proof.
  exists 10, (qc 1 1000), insert_one, sub_line, (KnotAxis 1 (map inj [0; 0; 2; 2])), 1%Qc.
  split; [apply insert_one_raises|]. split; [exact sub_line_ok|]. split; [reflexivity|]. split; [cut_ok|]. vm_compute. reflexivity.
Qed.
