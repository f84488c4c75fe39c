(** Property theorems C12, C13: knot insertion matrices. *)
From Coq Require Import List Arith ZArith QArith Qcanon Lia Permutation.
From Verif Require Import Base BaseQc BaseSort M_KnotInsert S_Spline S_KnotInsert P_KnotGlobal
  W_KnotInsert.
Import ListNotations.
Local Open Scope Qc_scope.

(** C12: multiplying the control points with the matrix gives a spline over the
    refined knot vector with the same values; rows are convex combinations.
    Partial: asks for a clamped lower end, a last basis function that does not
    vanish and knots that the tolerance does not confuse; the full claim for
    every knot vector is refuted below. *)
Theorem C12_geometry_preserved_partial :
  forall tol axes cps k p old ks dim,
  bs_wf (BSpline axes cps) -> nth_error axes k = Some (p, old) ->
  insertable tol p (length old - p - 1) old ks ->
  exists g,
    global_insertion_matrix tol axes k ks = Some g /\
    convex_rows (gm_entries g) (gm_new g) (length cps) /\
    forall new, Permutation new (old ++ ks) -> non_decreasing new ->
    let s := BSpline axes cps in
    let s' := BSpline (firstn k axes ++ (p, new) :: skipn (S k) axes)
                      (apply_entries (gm_entries g) (gm_new g) dim cps) in
    bs_wf s' /\
    forall us, bs_in_domain s us ->
      bs_in_domain s' us /\
      forall d, (d < dim)%nat -> bs_value s' us d = bs_value s us d.
Proof. exact insertion_geometry. Qed.
Print Assumptions C12_geometry_preserved_partial.

(** C12: without the clamped lower end the computation writes outside its row. *)
Theorem C12_unclamped_refuted :
  exists tol p n old ks,
    0 < tol /\ (1 <= p)%nat /\ knot_vector p n old /\ separated tol old (old ++ ks) /\
    (forall x, In x ks -> kn old p < x /\ x < kn old n) /\
    global_insertion_matrix tol [(p, old)] 0 ks = None.
Proof. exact unclamped_fails. Qed.
Print Assumptions C12_unclamped_refuted.

(** C12: same with one knot too many at the upper end. *)
Theorem C12_degenerate_end_refuted :
  exists tol p n old ks,
    0 < tol /\ (1 <= p)%nat /\ knot_vector p n old /\ kn old 0 = kn old p /\
    separated tol old (old ++ ks) /\
    (forall x, In x ks -> kn old p < x /\ x < kn old n) /\
    global_insertion_matrix tol [(p, old)] 0 ks = None.
Proof. exact degenerate_end_fails. Qed.
Print Assumptions C12_degenerate_end_refuted.

(** C12: same when a new knot is closer than the tolerance to the lower bound. *)
Theorem C12_tolerance_refuted :
  exists tol p n old ks,
    0 < tol /\ (1 <= p)%nat /\ knot_vector p n old /\ kn old 0 = kn old p /\
    kn old (n - 1) < kn old n /\
    (forall x, In x ks -> kn old p < x /\ x < kn old n) /\
    global_insertion_matrix tol [(p, old)] 0 ks = None.
Proof. exact near_bound_fails. Qed.
Print Assumptions C12_tolerance_refuted.

(** C12: degree 0 fails although the identity branch is meant to handle it. *)
Theorem C12_degree_zero_refuted :
  exists tol n old ks,
    0 < tol /\ knot_vector 0 n old /\ kn old (n - 1) < kn old n /\
    separated tol old (old ++ ks) /\
    (forall x, In x ks -> kn old 0 < x /\ x < kn old n) /\
    global_insertion_matrix tol [(0%nat, old)] 0 ks = None.
Proof. exact degree_zero_fails. Qed.
Print Assumptions C12_degree_zero_refuted.

(** Hypotheses of C12 are met by a surface with an unsorted request that
    repeats a knot. *)
Example C12_example :
  let old := [0; 0; 0; qc 1 2; 1; 1; 1] in
  let axes := [(1%nat, [0; 0; 1; 1]); (2%nat, old)] in
  let ks := [qc 3 4; qc 1 2; qc 3 4] in
  let cps := map (fun i => [inj i; inj (i * i)]) (seq 0 8) in
  bs_wf (BSpline axes cps) /\ insertable (qc 1 100) 2 4 old ks /\
  bs_in_domain (BSpline axes cps) [qc 1 3; qc 1 2].
Proof. exact c12_witness. Qed.

(** C13: a contiguous float64 array passed by the caller comes back sorted. *)
Theorem C13_caller_array_refuted :
  exists tol axes k ks g,
    global_insertion_matrix tol axes k ks = Some g /\
    arg_after g (ContiguousFloat64 ks) <> ks.
Proof. exact caller_array_changed. Qed.
Print Assumptions C13_caller_array_refuted.

(** C13: the read past the end of the new knots happens in every successful call
    whose new knots lie below the upper bound. *)
Theorem C13_read_past_end_refuted :
  forall tol axes k ks g p old,
  global_insertion_matrix tol axes k ks = Some g -> nth_error axes k = Some (p, old) ->
  old <> [] -> (forall x, In x ks -> x < nth (length old - 1) old 0) ->
  In (length ks) (gm_reads g).
Proof. exact global_reads. Qed.
Print Assumptions C13_read_past_end_refuted.

(** C13, what does hold: the argument keeps its values up to order, keeps them
    exactly when sorted before, and always when it is not a contiguous float64
    array. *)
Theorem C13_argument_partial :
  forall tol axes k a g,
  global_insertion_matrix tol axes k (arg_values a) = Some g ->
  Permutation (arg_after g a) (arg_values a) /\
  (match a with ContiguousFloat64 l => non_decreasing l | _ => True end ->
   arg_after g a = arg_values a).
Proof. exact argument_permuted. Qed.
Print Assumptions C13_argument_partial.

Example C13_example :
  exists g, global_insertion_matrix (qc 1 100) [(1%nat, [0; 0; 1; 1])] 0 [qc 1 2; qc 1 3] = Some g /\
    gm_buffer g = [qc 1 3; qc 1 2] /\ gm_reads g = [0; 0; 0; 1; 2; 2]%nat.
Proof. exact c13_witness. Qed.

(** C51: the matrix depends only on the multiset of requested knots. *)
Theorem C51_order_irrelevant :
  forall tol axes k ks ks',
  Permutation ks ks' -> global_insertion_matrix tol axes k ks = global_insertion_matrix tol axes k ks'.
Proof. exact insertion_order_irrelevant. Qed.
Print Assumptions C51_order_irrelevant.

(** C51: for clamped axes with well separated knots the refined spline exists,
    and its values agree. *)
Theorem C51_clamped_insertion_exact :
  forall tol axes cps k p old ks dim,
  bs_wf (BSpline axes cps) -> nth_error axes k = Some (p, old) ->
  insertable tol p (length old - p - 1) old ks ->
  exists g,
    global_insertion_matrix tol axes k ks = Some g /\
    convex_rows (gm_entries g) (gm_new g) (length cps) /\
    forall new, Permutation new (old ++ ks) -> non_decreasing new ->
    let s := BSpline axes cps in
    let s' := BSpline (firstn k axes ++ (p, new) :: skipn (S k) axes)
                      (apply_entries (gm_entries g) (gm_new g) dim cps) in
    bs_wf s' /\
    forall us, bs_in_domain s us ->
      bs_in_domain s' us /\
      forall d, (d < dim)%nat -> bs_value s' us d = bs_value s us d.
Proof. exact insertion_geometry. Qed.
Print Assumptions C51_clamped_insertion_exact.

Example C51_example :
  Permutation [qc 3 4; qc 1 2; qc 3 4] [qc 1 2; qc 3 4; qc 3 4].
Proof. apply perm_swap. Qed.
