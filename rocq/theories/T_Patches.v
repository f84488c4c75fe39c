(** Properties of multipatches: compatibility checks (C35), numbering of control
    points (C36), caches (C32), queries over all patches (C58). *)
From Coq Require Import String List Arith ZArith Bool Lia QArith Qcanon Sorted Permutation.
From Verif Require Import Base BaseQc M_Grid S_Grid M_Threads S_Threads P_Threads M_Boundaries S_Boundaries P_Boundaries M_Patches S_Patches P_Caches P_Patches W_Patches.
Import ListNotations.
Local Open Scope nat_scope.

(** C35: the general check reports exactly the patches that differ, for every
    number of threads.  The arguments agree with each other. *)
Theorem C35_request : forall hc r ps n,
  consistent r -> ps <> [] -> (1 <= n)%Z ->
  reports (raise_mismatch hc r ps n) (length ps) (fun k i => differs r k (nth i ps no_patch)).
Proof. exact C35_request_holds. Qed.
Print Assumptions C35_request.

(** C35: so does the check of a field against the patches. *)
Theorem C35_pairs : forall hc f ps qs n,
  length ps = length qs -> ps <> [] -> (1 <= n)%Z ->
  reports (raise_mismatch2 hc f ps qs n) (length ps)
          (fun k i => misfits f k (nth i ps no_patch) (nth i qs no_patch)).
Proof. exact C35_pairs_holds. Qed.
Print Assumptions C35_pairs.

(** C35: assigning patches raises exactly if some patch has other dimensions than
    the first one, and reports these.  Full statement: for every list of patches and
    every nthreads >= 1; here the list is not empty and the chunks of the threads
    stay within it. *)
Theorem C35_patches_partial : forall hc ps n,
  ps <> [] -> (1 <= n)%Z -> chunks_fit (Z.of_nat (length ps)) n ->
  0 < p_para_dim (nth 0 ps no_patch) -> 0 < p_dim (nth 0 ps no_patch) ->
  reports (set_patches hc ps n) (length ps) (odd_dims ps).
Proof. exact C35_patches_partial_holds. Qed.
Print Assumptions C35_patches_partial.

(** C35: the outcome does not depend on the threads. *)
Theorem C35_threads_partial : forall hc hc' ps n n',
  ps <> [] -> (1 <= n)%Z -> (1 <= n')%Z ->
  chunks_fit (Z.of_nat (length ps)) n -> chunks_fit (Z.of_nat (length ps)) n' ->
  0 < p_para_dim (nth 0 ps no_patch) -> 0 < p_dim (nth 0 ps no_patch) ->
  (set_patches hc ps n = Matches <-> set_patches hc' ps n' = Matches) /\
  forall rep rep' k, set_patches hc ps n = Mismatches rep -> set_patches hc' ps n' = Mismatches rep' ->
    Permutation (rep k) (rep' k).
Proof. exact C35_threads_partial_holds. Qed.
Print Assumptions C35_threads_partial.

(** C35: otherwise a thread reads behind the end of the list. *)
Theorem C35_overrun : forall hc ps n,
  ps <> [] -> (1 <= n)%Z -> ~ chunks_fit (Z.of_nat (length ps)) n -> set_patches hc ps n = Crash.
Proof. exact C35_overrun_holds. Qed.
Print Assumptions C35_overrun.

(** C35: fields are added exactly if all of them fit; otherwise the exception tells
    exactly the fields that do not.  Full statement: for every list of fields; here
    each field has one parametric and one physical dimension and the chunks of the
    threads stay within the list. *)
Theorem C35_fields_partial : forall hc ps f fields n,
  ps <> [] -> (1 <= n)%Z -> fields <> [] \/ n = 1%Z -> chunks_fit (Z.of_nat (length fields)) n ->
  Forall (uniform (p_para_dim (nth 0 ps no_patch)) (f_field_dim f)) fields ->
  (add_fields hc ps f fields n = Added /\
     forall i, i < length fields -> ~ misfit_field ps f (nth i fields [])) \/
  (exists ids, add_fields hc ps f fields n = Rejected ids /\ ids <> [] /\ NoDup ids /\
     forall i, In i ids <-> i < length fields /\ misfit_field ps f (nth i fields [])).
Proof. exact C35_fields_partial_holds. Qed.
Print Assumptions C35_fields_partial.


(** C35: five equal patches and four threads. *)
Theorem C35_threads_refuted :
  ~ (forall hc ps n, ps <> [] -> (1 <= n)%Z ->
     (forall k i, i < length ps -> ~ odd_dims ps k i) -> set_patches hc ps n = Matches).
Proof. exact C35_threads_refuted_holds. Qed.
Print Assumptions C35_threads_refuted.

(** C35: an empty list: the first patch is read although there is none. *)
Theorem C35_empty_refuted : forall hc, (1 <= hc)%Z -> set_patches hc [] 1 = Crash.
Proof. exact C35_empty_refuted_holds. Qed.
Print Assumptions C35_empty_refuted.

(** C35: the same faulty field raises with one thread and terminates the process
    with two. *)
Theorem C35_terminate_refuted :
  let ps := [surface 3] in let f := Flags false true 1 false false in
  let fields := [[Some (surface 1); Some (Patch "BSpline" 1 1 [2] [4] false)]; [Some (surface 1)]] in
  add_fields 4 ps f fields 1 = CtorRaised /\ add_fields 4 ps f fields 2 = Terminated.
Proof. exact C35_terminate_refuted_holds. Qed.
Print Assumptions C35_terminate_refuted.

(** C35: a request of resolutions only is refused whatever the patches are. *)
Theorem C35_resolutions_refuted :
  exists r, (forall n m, wants r n -> wants r m -> n = m) /\
    (forall k i, i < 2 -> ~ differs r k (nth i [surface 3; surface 3] no_patch)) /\
    forall hc n, raise_mismatch hc r [surface 3; surface 3] n = BadRequest.
Proof. exact C35_resolutions_refuted_holds. Qed.
Print Assumptions C35_resolutions_refuted.

Example C35_example :
  let ps := [surface 3; surface 2; surface 3; Patch "Bezier" 3 2 [1; 1; 1] [2; 2; 2] false] in
  match set_patches 8 ps 2 with
  | Mismatches rep => (rep KParaDim, rep KDim, rep KDegrees) = ([3], [1; 3], [])
  | _ => False
  end.
Proof. exact C35_example_holds. Qed.

Example C35_fit_example : chunks_fit 4 2 /\ chunks_fit 5 3 /\ ~ chunks_fit 5 4.
Proof. exact C35_fit_example_holds. Qed.

Example C35_fields_example :
  let ps := [surface 3; surface 3] in let f := Flags false true 1 true false in
  let thin := Patch "BSpline" 2 1 [1; 2] [4; 4] false in
  let fields := [[Some (surface 1); None]; [Some thin; Some (surface 1)]; [Some (surface 1)]] in
  Forall (uniform 2 1) fields /\
  add_fields 8 ps f fields 2 = Rejected [1; 2] /\
  add_fields 8 ps f (firstn 1 fields) 2 = Added.
Proof. exact C35_fields_example_holds. Qed.

(** C36: offsets are the prefix sums. *)
Theorem C36_offsets : forall R (coords : list (list R)),
  length (offsets coords) = length coords /\
  forall i, i < length coords -> nth i (offsets coords) 0 = prefix_sum (map (@length R) coords) i.
Proof. exact C36_offsets_holds. Qed.
Print Assumptions C36_offsets.

(** C36: whatever the order of the threads' writes, the collected control points are
    those of the patches one after another; patch [i] is found at its offset.  The
    chunks of the threads stay within the list of patches. *)
Theorem C36_control_points : forall R hc (coords : list (list R)) n,
  coords <> [] -> (1 <= n)%Z -> chunks_fit (Z.of_nat (length coords)) n ->
  exists ids, chunk_ids hc (length coords) n = Some ids /\
  forall ws buf, Permutation ws (cp_writes coords ids) -> length buf = n_control_points coords ->
  let cps := put_rows buf ws in
  cps = concat coords /\
  forall i, i < length coords ->
    nth i (offsets coords) 0 + length (nth i coords []) <= length cps /\
    firstn (length (nth i coords [])) (skipn (nth i (offsets coords) 0) cps) = nth i coords [].
Proof. exact C36_control_points_holds. Qed.
Print Assumptions C36_control_points.

(** C36: otherwise a thread writes behind the end of the array. *)
Theorem C36_overrun_refuted :
  exists hc n, (1 <= n)%Z /\ chunk_ids hc (length (repeat [tt] 5)) n = None.
Proof. exact C36_overrun_refuted_holds. Qed.
Print Assumptions C36_overrun_refuted.

Example C36_example :
  let coords := [[10; 11]; [20; 21; 22]; []; [40]] in
  offsets coords = [0; 2; 5; 5] /\
  put_rows (repeat 0 6) (rev (cp_writes coords [2; 3; 0; 1])) = [10; 11; 20; 21; 22; 40].
Proof. exact C36_example_holds. Qed.

(** C58: evaluation of all patches: the rows are ordered by patch, then by query,
    for every number of threads and every order of writes. *)
Theorem C58_evaluate : forall R hc (eval : nat -> nat -> R) np nq n,
  0 < np * nq -> (1 <= n)%Z ->
  exists ids, strided_ids hc (np * nq) n = Some ids /\
  forall ws buf, Permutation ws (eval_writes eval nq ids) -> length buf = np * nq ->
    put_rows buf ws = flat_map (fun p => map (eval p) (seq 0 nq)) (seq 0 np).
Proof. exact C58_evaluate_holds. Qed.
Print Assumptions C58_evaluate.

(** C58: sampling: each patch at the regular grid of its own domain. *)
Theorem C58_sample : forall R same bounds (eval : nat -> list Qc -> R) pd res hc np n,
  0 < pd -> (2 <= res)%Z -> 0 < np -> (1 <= n)%Z ->
  (same = true -> forall p, p < np -> bounds p = bounds 0) ->
  (same = false -> chunks_fit (Z.of_nat np) n) ->
  exists ws, sample_writes same bounds eval pd res hc np n = Some ws /\
    forall ws' buf, Permutation ws' ws -> length buf = np * Z.to_nat res ^ pd ->
      put_rows buf ws' =
      flat_map (fun p => map (fun q => eval p (sample_point pd res (bounds p) q)) (seq 0 (Z.to_nat res ^ pd)))
               (seq 0 np).
Proof. exact C58_sample_holds. Qed.
Print Assumptions C58_sample.

(** C58: row 2 i + side of the face centers is on the face: coordinate [i] at the
    bound, the others in the middle. *)
Theorem C58_centers : forall pd bounds i side j, i < pd -> side < 2 -> j < pd ->
  let row := nth (2 * i + side) (boundary_centers pd bounds) [] in
  length row = pd /\
  nth j row 0%Qc = if j =? i then nth (if side =? 0 then i else i + pd) bounds 0%Qc
                   else ((nth j bounds 0 + nth (j + pd)%nat bounds 0) / inj 2)%Qc.
Proof. exact C58_centers_holds. Qed.
Print Assumptions C58_centers.

(** C58: no queries: with two threads the work is divided by zero. *)
Theorem C58_empty_refuted :
  strided_ids 4 (3 * 0) 2 = None /\ strided_ids 4 (3 * 0) 1 = Some [].
Proof. exact C58_empty_refuted_holds. Qed.
Print Assumptions C58_empty_refuted.

Example C58_example :
  match strided_ids 4 (2 * 3) 4 with
  | Some ids => ids = [0; 4; 1; 5; 2; 3] /\
      put_rows (repeat 0 6) (eval_writes (fun p q => 10 * p + q) 3 ids) = [0; 1; 2; 10; 11; 12]
  | None => False
  end.
Proof. exact C58_example_holds. Qed.

(** C32: whatever happened before, assignments take effect for [interfaces], and for
    the faces and the boundary multipatch of one boundary id. *)
Theorem C32_uncached :
  forall P B O (sub_of : P -> B) conn_of boundary_of faces_of (orient_of : P -> _ -> Qc -> O),
  (forall p, 0 < faces_of p) -> forall p h o, plain P o ->
  right_answer P B O sub_of conn_of boundary_of faces_of orient_of
    (grun P conn_of (Given _ p None) (h ++ [o])) o
    (snd (mstep P B O sub_of conn_of boundary_of faces_of orient_of
       (mrun P B O sub_of conn_of boundary_of faces_of orient_of (fresh P B O p) h) o)).
Proof. exact C32_uncached_holds. Qed.
Print Assumptions C32_uncached.

(** C32: after an assignment of patches, [boundary_patch_ids] and the orientations
    are those of the new patches.  Full statement: every read after every history.
    Here the interfaces are changed only before the first cached read, apart from
    edits of boundary ids, and one tolerance is used. *)
Theorem C32_lists_partial :
  forall P B O (sub_of : P -> B) conn_of boundary_of faces_of (orient_of : P -> _ -> Qc -> O),
  (forall p, 0 < faces_of p) -> forall p0 h p w tol r o,
  Forall (plain P) w -> Forall (gentle P tol) r -> gentle P tol o ->
  (match o with ReadSub _ => False | ReadBoundary _ bid => (0 < bid)%Z | _ => True end) ->
  right_answer P B O sub_of conn_of boundary_of faces_of orient_of
    (grun P conn_of (Given _ p0 None) (h ++ SetPatches _ p :: w ++ r ++ [o])) o
    (snd (mstep P B O sub_of conn_of boundary_of faces_of orient_of
       (mrun P B O sub_of conn_of boundary_of faces_of orient_of (fresh P B O p0) (h ++ SetPatches _ p :: w ++ r)) o)).
Proof. exact C32_lists_partial_holds. Qed.
Print Assumptions C32_lists_partial.

(** C32: after patches or interfaces are assigned, or interfaces recomputed, orientations
    are those of the new table, whatever was read before; one tolerance after that. *)
Theorem C32_orientations_partial :
  forall P B O (sub_of : P -> B) conn_of boundary_of faces_of (orient_of : P -> _ -> Qc -> O),
  (forall p, 0 < faces_of p) -> forall p0 h o0 tol r, renews P o0 -> Forall (gentle P tol) r ->
  right_answer P B O sub_of conn_of boundary_of faces_of orient_of
    (grun P conn_of (Given _ p0 None) (h ++ o0 :: r ++ [ReadOrientations _ tol])) (ReadOrientations _ tol)
    (snd (mstep P B O sub_of conn_of boundary_of faces_of orient_of
       (mrun P B O sub_of conn_of boundary_of faces_of orient_of (fresh P B O p0) (h ++ o0 :: r)) (ReadOrientations _ tol))).
Proof. exact C32_orientations_partial_holds. Qed.
Print Assumptions C32_orientations_partial.

(** C32: a multipatch whose patches and interfaces are assigned before the first
    cached read answers every read correctly. *)
Theorem C32_first_partial :
  forall P B O (sub_of : P -> B) conn_of boundary_of faces_of (orient_of : P -> _ -> Qc -> O),
  (forall p, 0 < faces_of p) -> forall p w tol r o,
  Forall (plain P) w -> Forall (gentle P tol) r -> gentle P tol o ->
  right_answer P B O sub_of conn_of boundary_of faces_of orient_of
    (grun P conn_of (Given _ p None) (w ++ r ++ [o])) o
    (snd (mstep P B O sub_of conn_of boundary_of faces_of orient_of
       (mrun P B O sub_of conn_of boundary_of faces_of orient_of (fresh P B O p) (w ++ r)) o)).
Proof. exact C32_first_partial_holds. Qed.
Print Assumptions C32_first_partial.

(** C32: [sub_multipatch] after other patches are assigned. *)
Theorem C32_sub_refuted : exists p q, wrong p [ReadSub _; SetPatches _ q] (ReadSub _).
Proof. exact C32_sub_refuted_holds. Qed.
Print Assumptions C32_sub_refuted.

(** C32: [boundary_multipatch] after other patches are assigned. *)
Theorem C32_boundary_refuted :
  exists p q, wrong p [ReadBoundary _ (-1); SetPatches _ q] (ReadBoundary _ (-1)).
Proof. exact C32_boundary_refuted_holds. Qed.
Print Assumptions C32_boundary_refuted.

(** C32: [boundary_patch_ids] after interfaces are assigned or recomputed. *)
Theorem C32_ids_refuted :
  (exists p t, wrong p [ReadIds _ (-1); SetInterfaces _ t] (ReadIds _ (-1))) /\
  (exists p t, wrong p [SetInterfaces _ t; ReadIds _ (-1); Recompute _] (ReadIds _ (-1))).
Proof. exact C32_ids_refuted_holds. Qed.
Print Assumptions C32_ids_refuted.

(** C32: orientations after the table is edited in place, and of another tolerance. *)
Theorem C32_orientations_refuted :
  (exists p f, wrong p [ReadOrientations _ 0%Qc; EditInterfaces _ f] (ReadOrientations _ 0%Qc)) /\
  (exists p, wrong p [ReadOrientations _ 0%Qc] (ReadOrientations _ 1%Qc)).
Proof. exact C32_orientations_refuted_holds. Qed.
Print Assumptions C32_orientations_refuted.

(** C32: there is no boundary with id 0, yet [boundary_patch_ids(0)] tells the
    neighbour of face 0. *)
Theorem C32_zero_refuted : exists p, wrong p [] (ReadIds _ 0).
Proof. exact C32_zero_refuted_holds. Qed.
Print Assumptions C32_zero_refuted.

Example C32_example :
  let h := [SetPatches _ [3; 2; 1; 0; -1]%Z; SetInterfaces _ [1; 0; -2; -1]%Z; ReadIds _ (-1)%Z;
            EditInterfaces _ (map (fun v => if (v <? 0)%Z then (v - 3)%Z else v))] in
  Forall (plain _) (firstn 2 h) /\ Forall (gentle _ 0%Qc) (skipn 2 h) /\
  snd (demo_step (demo_run (demo_new [(-1)%Z]) h) (ReadIds _ (-1)%Z)) = Ids _ _ [2; 3] /\
  snd (demo_step (demo_run (demo_new [(-1)%Z]) h) (ReadIds _ 5%Z)) = Ids _ _ [2].
Proof. exact C32_example_holds. Qed.