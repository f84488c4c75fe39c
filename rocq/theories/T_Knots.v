(** Property theorems C14 - C18: knot queries, refinement, normalization. *)
From Coq Require Import List Arith ZArith QArith Qcanon Lia Permutation Sorted.
From Verif Require Import Base BaseQc S_Spline S_Value M_Knots S_Knots P_Knots P_Insert P_Greville
  W_KnotInsert W_Reparam W_Knots.
Import ListNotations.
Local Open Scope nat_scope.

(** C14 for one axis: every request succeeds; the new knots are exactly n
    equidistant ones in every non-empty span.  Partial: spans must be wide
    enough for the tolerances, see the refutation. *)
Theorem C14_axis_refinement_partial :
  forall ins p, inserts_new ins ->
  forall epsk epsd m kv n,
  knot_vector p m kv -> (0 < epsk)%Qc -> (0 < epsd)%Qc ->
  (forall i, p <= i < m -> (kn kv i < kn kv (i + 1))%Qc ->
     (epsk <= kn kv (i + 1) - kn kv i)%Qc /\ (epsd * inj (n + 1) <= kn kv (i + 1) - kn kv i)%Qc) ->
  exists kv' new, refine_axis ins epsk epsd p kv n = Inserted kv' (repeat (Some true) (length new)) /\
    non_decreasing kv' /\ Permutation kv' (kv ++ new) /\ refines_spans p kv n new.
Proof. exact refine_axis_spec. Qed.
Print Assumptions C14_axis_refinement_partial.

(** C14 for the loop over distinct axes: the others stay as they are. *)
Theorem C14_axis_list_partial :
  forall ins epsk epsd, inserts_new ins -> (0 < epsk)%Qc -> (0 < epsd)%Qc ->
  forall todo axes,
  NoDup (map fst todo) ->
  (forall k n, In (k, n) todo -> exists a, nth_error axes k = Some a /\ refinable epsk epsd a n) ->
  exists axes', refine_loop ins epsk epsd axes todo = Some axes' /\ length axes' = length axes /\
    (forall k n a, In (k, n) todo -> nth_error axes k = Some a ->
       exists a', nth_error axes' k = Some a' /\ refined a a' n) /\
    (forall k, ~ In k (map fst todo) -> nth_error axes' k = nth_error axes k).
Proof. exact refine_loop_spec. Qed.
Print Assumptions C14_axis_list_partial.

Example C14_example :
  inserts_new (lib_limited 2) /\
  uniform_refine (lib_limited 2) eps52 eps52
    [(2, [0; 0; 0; qc 1 4; 1; 1; 1]%Qc); (1, [0; 0; 1; 1]%Qc)] [0] [1] =
  Some [(2, [0; 0; 0; qc 1 8; qc 1 4; qc 5 8; 1; 1; 1]%Qc); (1, [0; 0; 1; 1]%Qc)].
Proof. split; [apply lib_limited_new; lia|qceq]. Qed.

(** C14: a span of width eps gets a double knot instead of two knots. *)
Theorem C14_narrow_span_refuted :
  exists p m kv n kv' flags, knot_vector p m kv /\ clamped_ends p kv /\
    refine_axis (lib_limited p) (qc 1 10000000000000000) eps52 p kv n = Inserted kv' flags /\
    forall new, refines_spans p kv n new -> ~ Permutation kv' (kv ++ new).
Proof. exact narrow_span_merges. Qed.
Print Assumptions C14_narrow_span_refuted.

(** C15: knots. *)
Theorem C15_normalized_knots :
  forall p kv,
  ax_wf (KnotAxis p kv) ->
  exists kv', normalize_axis (KnotAxis p kv) = KnotAxis p kv' /\ ax_wf (KnotAxis p kv') /\
    length kv' = length kv /\ kn kv' 0 = 0%Qc /\ kn kv' (length kv - 1) = 1%Qc /\
    exists c, (0 < c)%Qc /\ forall i j, (kn kv' j - kn kv' i = c * (kn kv j - kn kv i))%Qc.
Proof. exact normalize_axis_spec. Qed.
Print Assumptions C15_normalized_knots.

(** C15: geometry at corresponding parameters. *)
Theorem C15_geometry :
  forall s us d,
  sp_wf s -> length us = length (sp_axes s) ->
  sp_value (normalize_knot_vectors s) (map (fun au => unit_param (fst au) (snd au)) (combine (sp_axes s) us)) d
  = sp_value s us d.
Proof. exact normalize_values. Qed.
Print Assumptions C15_geometry.

Example C15_example :
  ax_wf (KnotAxis 1 [inj 1; inj 1; inj 2; inj 5; inj 5]) /\
  normalize_axis (KnotAxis 1 [inj 1; inj 1; inj 2; inj 5; inj 5]) = KnotAxis 1 [0; 0; qc 1 4; 1; 1]%Qc /\
  sp_wf wit_surface.
Proof.
  split; [apply knot_vector_dec; vm_compute; reflexivity|]. split; [qceq|exact wit_surface_wf].
Qed.

(** C16 for every knot vector: strictly increasing with gaps of at least eps,
    starts at the lower bound, consists of knots of the valid range and comes
    within eps of each of them. *)
Theorem C16_unique_knots :
  forall eps p n kv,
  (0 < eps)%Qc -> knot_vector p n kv ->
  StronglySorted (fun x y => x + eps <= y)%Qc (unique_knots eps p kv) /\
  hd 0%Qc (unique_knots eps p kv) = kn kv p /\
  (forall x, In x (unique_knots eps p kv) -> exists i, p <= i <= n /\ x = kn kv i) /\
  (forall i, p <= i <= n -> exists x, In x (unique_knots eps p kv) /\ (x <= kn kv i)%Qc /\ (kn kv i < x + eps)%Qc).
Proof. exact unique_knots_spaced. Qed.
Print Assumptions C16_unique_knots.

(** C16 when different knots are at least eps apart. *)
Theorem C16_unique_knots_exact_partial :
  forall eps p n kv,
  (0 < eps)%Qc -> knot_vector p n kv -> apart eps kv ->
  StronglySorted Qclt (unique_knots eps p kv) /\
  (forall x, In x (unique_knots eps p kv) <-> exists i, p <= i <= n /\ x = kn kv i) /\
  hd 0%Qc (unique_knots eps p kv) = kn kv p /\ last (unique_knots eps p kv) 0%Qc = kn kv n.
Proof. exact unique_knots_exact. Qed.
Print Assumptions C16_unique_knots_exact_partial.

(** C16: decomposition, for clamped knot vectors. *)
Theorem C16_decomposition_partial :
  forall eps p n kv,
  (0 < eps)%Qc -> knot_vector p n kv -> apart eps kv -> clamped_ends p kv ->
  expand_knots (unique_knots eps p kv) (run_lengths (near eps) kv) = kv.
Proof. exact multiplicities_expand. Qed.
Print Assumptions C16_decomposition_partial.

Example C16_example :
  knot_vector 2 5 [0; 0; 0; qc 1 2; qc 1 2; 1; 1; 1]%Qc /\
  apart eps52 [0; 0; 0; qc 1 2; qc 1 2; 1; 1; 1]%Qc /\
  clamped_ends 2 [0; 0; 0; qc 1 2; qc 1 2; 1; 1; 1]%Qc /\
  unique_knots eps52 2 [0; 0; 0; qc 1 2; qc 1 2; 1; 1; 1]%Qc = [0; qc 1 2; 1]%Qc /\
  run_lengths (near eps52) [0; 0; 0; qc 1 2; qc 1 2; 1; 1; 1]%Qc = [3; 2; 3].
Proof.
  split; [lit|]. split; [apply apart_dec; vm_compute; reflexivity|]. split; [split; reflexivity|].
  split; qceq.
Qed.

(** C16: the list does not have to end at the upper bound. *)
Theorem C16_upper_bound_refuted :
  forall eps, (0 < eps)%Qc -> exists p n kv, knot_vector p n kv /\ clamped_ends p kv /\
    last (unique_knots eps p kv) 0%Qc <> kn kv n.
Proof. exact unique_misses_upper. Qed.
Print Assumptions C16_upper_bound_refuted.

(** C16: unclamped knot vectors give lists of different lengths. *)
Theorem C16_unclamped_refuted :
  exists eps p n kv, (0 < eps)%Qc /\ knot_vector p n kv /\ apart eps kv /\
    length (unique_knots eps p kv) <> length (run_lengths (near eps) kv).
Proof. exact multiplicity_mismatch. Qed.
Print Assumptions C16_unclamped_refuted.

(** C17: without the duplicate filter the values are the knot means. *)
Theorem C17_values :
  forall p kv tol, 0 < p -> (tol <= 0)%Qc ->
  exists g, greville (KnotAxis p kv) tol = Some g /\ length g = ax_n (KnotAxis p kv) /\
    forall j, j < length g -> nth j g 0%Qc = mean (map (fun k => kn kv (j + 1 + k)) (seq 0 p)).
Proof. exact greville_values. Qed.
Print Assumptions C17_values.

(** C17: with any tolerance one value per control point, ordered, and inside
    the bounds of a clamped knot vector. *)
Theorem C17_ordered_inside :
  forall p n kv tol, 0 < p -> knot_vector p n kv ->
  exists g, greville (KnotAxis p kv) tol = Some g /\ length g = n /\ non_decreasing g /\
    (clamped_ends p kv -> forall x, In x g -> (kn kv p <= x)%Qc /\ (x <= kn kv n)%Qc).
Proof. exact greville_ordered. Qed.
Print Assumptions C17_ordered_inside.

(** C17 for Bezier types. *)
Theorem C17_bezier :
  forall p tol, 0 < p ->
  exists g, greville (BezierAxis p) tol = Some g /\ length g = p + 1 /\ non_decreasing g /\
    nth 0 g 0%Qc = 0%Qc /\ nth p g 0%Qc = 1%Qc /\ forall j, j <= p -> nth j g 0%Qc = (inj j / inj p)%Qc.
Proof. exact bezier_greville. Qed.
Print Assumptions C17_bezier.

Example C17_example :
  knot_vector 1 5 [0; 0; qc 1 3; qc 1 2; qc 1 2; 1; 1]%Qc /\
  clamped_ends 1 [0; 0; qc 1 3; qc 1 2; qc 1 2; 1; 1]%Qc /\
  greville (KnotAxis 1 [0; 0; qc 1 3; qc 1 2; qc 1 2; 1; 1]%Qc) 0 = Some [0; qc 1 3; qc 1 2; qc 1 2; 1]%Qc /\
  greville (KnotAxis 1 [0; 0; qc 1 3; qc 1 2; qc 1 2; 1; 1]%Qc) (qc 1 100) = Some [0; qc 1 3; qc 5 12; qc 3 4; 1]%Qc.
Proof. split; [lit|]. split; [split; reflexivity|]. split; qceq. Qed.

(** C17: the bounds need a clamped knot vector. *)
Theorem C17_unclamped_outside :
  exists p n kv tol g x, 0 < p /\ knot_vector p n kv /\ greville (KnotAxis p kv) tol = Some g /\
    In x g /\ (x < kn kv p)%Qc.
Proof. exact greville_unclamped. Qed.
Print Assumptions C17_unclamped_outside.

(** C18: the kernel is fed with the distinct knots, ascending, each with its
    number of requests; the k-th request for a knot is flagged iff the kernel
    added more than k copies.  Partial: different requests must be eps apart. *)
Theorem C18_grouping_partial :
  forall (St : Type) (kernel : St -> Qc -> nat -> St * nat) eps st ks us,
  (0 < eps)%Qc -> apart eps ks -> ks <> [] ->
  StronglySorted Qclt us -> (forall x, In x us <-> In x ks) ->
  exists flags, insert_knots_core kernel eps st ks = Some (feed kernel ks us st, flags) /\
    length flags = length ks /\
    forall i, i < length ks ->
      nth i flags None =
      Some (requests (nth i ks 0%Qc) (firstn i ks) <? added kernel ks us st (nth i ks 0%Qc)).
Proof. exact @insert_core_spec. Qed.
Print Assumptions C18_grouping_partial.

(** C18: the order of the requests does not matter. *)
Theorem C18_order_independent_partial :
  forall (St : Type) (kernel : St -> Qc -> nat -> St * nat) eps st ks ks',
  (0 < eps)%Qc -> apart eps ks -> ks <> [] -> Permutation ks ks' ->
  exists st' f f', insert_knots_core kernel eps st ks = Some (st', f) /\
    insert_knots_core kernel eps st ks' = Some (st', f').
Proof. exact @insert_order_independent. Qed.
Print Assumptions C18_order_independent_partial.

(** C18: the knot vector gains exactly the requests whose flag is set. *)
Theorem C18_flags_partial :
  forall ins p eps kv ks,
  inserts_copies ins -> (0 < eps)%Qc -> apart eps ks -> ks <> [] -> non_decreasing kv ->
  exists kv' flags, insert_knots_core (guarded_insert ins p) eps kv ks = Some (kv', flags) /\
    length flags = length ks /\ (forall i, i < length ks -> nth i flags None <> None) /\
    non_decreasing kv' /\ Permutation kv' (kv ++ flagged ks flags).
Proof. exact insert_flagged. Qed.
Print Assumptions C18_flags_partial.

Example C18_example :
  inserts_copies (lib_limited 2) /\
  apart eps52 [qc 1 2; 1; qc 1 4; qc 1 2; qc 1 2]%Qc /\
  insert_knots_core (guarded_insert (lib_limited 2) 2) eps52 [0; 0; 0; qc 1 2; 1; 1; 1]%Qc
    [qc 1 2; 1; qc 1 4; qc 1 2; qc 1 2]%Qc =
  Some ([0; 0; 0; qc 1 4; qc 1 2; qc 1 2; 1; 1; 1]%Qc,
        [Some true; Some false; Some true; Some false; Some false]).
Proof.
  split; [apply lib_limited_copies|]. split; [apply apart_dec; vm_compute; reflexivity|qceq].
Qed.

(** C18: different requests closer than the tolerance are merged, both are
    reported as inserted. *)
Theorem C18_near_requests_refuted :
  exists p n kv ks kv' flags, knot_vector p n kv /\
    (forall x, In x ks -> (kn kv p < x)%Qc /\ (x < kn kv n)%Qc) /\ NoDup ks /\
    insert_knots_core (guarded_insert (lib_limited p) p) eps52 kv ks = Some (kv', flags) /\
    flags = [Some true; Some true] /\ ~ Permutation kv' (kv ++ ks).
Proof. exact near_requests_merge. Qed.
Print Assumptions C18_near_requests_refuted.
