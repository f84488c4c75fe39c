(** Property theorems C31, C55, C56, C57: interfaces between patches. *)
From Coq Require Import List Arith ZArith Bool QArith Qcanon Lia.
From Verif Require Import Base BaseQc M_Knots M_Threads M_Interfaces S_Interfaces P_Interfaces W_Interfaces.
Import ListNotations.
Local Open Scope nat_scope.

(** * C31 *)

(** Faces of a table without three faces in one position: exactly the faces in
    the same position are connected, all others are boundary. *)
Theorem C31_matching_partial : forall sqrt dim ps tol para_dim,
  root_bound sqrt -> 0 < dim -> points dim ps -> ps <> [] ->
  para_dim <> 0 -> length ps mod (para_dim * 2) = 0 ->
  ~ crowded tol ps ->
  exists conn, interfaces_from_centers sqrt dim ps tol para_dim = Connected conn /\
    interface_table tol ps conn.
Proof. exact C31_matching_partial_holds. Qed.
Print Assumptions C31_matching_partial.

(** If the tolerance tells positions apart: an exception iff three faces are in
    one position. *)
Theorem C31_conflict_partial : forall sqrt dim ps tol para_dim,
  root_bound sqrt -> 0 < dim -> points dim ps -> ps <> [] ->
  para_dim <> 0 -> length ps mod (para_dim * 2) = 0 ->
  separated tol ps ->
  (interfaces_from_centers sqrt dim ps tol para_dim = Conflict <-> crowded tol ps).
Proof. exact C31_conflict_partial_holds. Qed.
Print Assumptions C31_conflict_partial.

(** In every case: each face is boundary or connected to another face in the
    same position. *)
Theorem C31_sound : forall sqrt dim ps tol para_dim conn,
  root_bound sqrt -> 0 < dim -> points dim ps -> ps <> [] ->
  para_dim <> 0 -> length ps mod (para_dim * 2) = 0 ->
  interfaces_from_centers sqrt dim ps tol para_dim = Connected conn ->
  length conn = length ps /\
  forall i, i < length ps -> nth i conn 0%Z = (-1)%Z \/
    exists j, nth i conn 0%Z = Z.of_nat j /\ meet tol ps i j.
Proof. exact C31_sound_holds. Qed.
Print Assumptions C31_sound.


Example C31_example :
  points 2 two_patches /\ length two_patches mod (1 * 2) = 0 /\
  ~ crowded 1 two_patches /\ separated 1 two_patches /\
  meet 1 two_patches 1 2 /\
  root_bound some_root /\
  interfaces_from_centers some_root 2 two_patches 1 1 = Connected [-1; 2; 1; -1]%Z.
Proof. exact C31_example_holds. Qed.

(** C31 fails: connections need not be symmetric. *)
Theorem C31_symmetry_refuted : forall sqrt, root_bound sqrt ->
  exists ps tol conn i j,
    interfaces_from_centers sqrt 2 ps tol 1 = Connected conn /\
    i < length ps /\ j < length ps /\ nth i conn 0%Z = Z.of_nat j /\ nth j conn 0%Z <> Z.of_nat i.
Proof. exact C31_symmetry_refuted_holds. Qed.
Print Assumptions C31_symmetry_refuted.

(** C31 fails: a face in the position of another one may be marked as boundary
    without an exception. *)
Theorem C31_missed_refuted : forall sqrt, root_bound sqrt ->
  exists ps tol conn i j,
    interfaces_from_centers sqrt 2 ps tol 1 = Connected conn /\
    meet tol ps i j /\ nth i conn 0%Z = (-1)%Z.
Proof. exact C31_missed_refuted_holds. Qed.
Print Assumptions C31_missed_refuted.

(** * C55 *)

(** interface_orientations: every connected pair once, lower face first. *)
Theorem C55_pairs : forall faces conn, 0 < faces ->
  NoDup (pairs faces conn) /\
  (forall p f q g, In (p, f, (q, g)) (pairs faces conn) <->
     exists i j, i < length conn /\ i < j /\ nth i conn 0%Z = Z.of_nat j /\
       p = i / faces /\ f = i mod faces /\ q = j / faces /\ g = j mod faces) /\
  (symmetric_table conn ->
     2 * length (pairs faces conn) = length (filter (fun z => 0 <=? z)%Z conn)).
Proof. exact C55_pairs_holds. Qed.
Print Assumptions C55_pairs.

Example C55_example :
  symmetric_table [-1; 4; -1; -1; 1; -1; -1; -3]%Z /\
  pairs 4 [-1; 4; -1; -1; 1; -1; -1; -3]%Z = [(0, 1, (1, 0))].
Proof. exact C55_example_holds. Qed.

(** * C56 *)
Theorem C56_orientation_partial : forall sqrt tol js je fs fe i,
  root_bound sqrt -> root_exact sqrt -> (0 < tol)%Qc -> (tol < 1)%Qc -> i < length js ->
  (i = fs / 2 -> nth i (orientation sqrt tol js je fs fe) None =
     Some (fe / 2, negb (Bool.eqb (Nat.even fs) (Nat.even fe)))) /\
  (forall j c, i <> fs / 2 -> same_line tol (nth i js []) je j c ->
     nth i (orientation sqrt tol js je fs fe) None = Some (j, qltb 0 c)).
Proof. exact C56_orientation_partial_holds. Qed.
Print Assumptions C56_orientation_partial.

Example C56_example :
  root_bound some_root /\ root_exact some_root /\
  same_line (qc 1 10) [0; - (1 + 1)]%Qc [[1; 1]; [0; 1]]%Qc 1 (- (1 + 1)) /\
  orientation some_root (qc 1 10) [[1; 0]; [0; - (1 + 1)]]%Qc [[1; 1]; [0; 1]]%Qc 1 0 =
    [Some (0, true); Some (1, false)].
Proof. exact C56_example_holds. Qed.

(** C56 fails: without a parallel tangent the entries are never written. *)
Theorem C56_uninitialised_refuted :
  nth 1 (orientation some_root (qc 1 10) [[1; 0]; [0; 1]] [[1; 1]; [1; - (1)]] 1 0)%Qc None = None.
Proof. exact C56_uninitialised_refuted_holds. Qed.
Print Assumptions C56_uninitialised_refuted.

(** * C57 *)

(** extract_all_boundary_splines returns the boundaries of the first [nthreads]
    patches. *)
Theorem C57_extract_partial : forall (A : Type) hc (boundary : nat -> nat -> A) faces conn n_threads,
  0 < faces -> 0 < n_threads -> length conn mod faces = 0 -> n_threads <= length conn / faces ->
  extract_all hc boundary (length conn / faces) faces n_threads conn =
  Some (map (fun i => boundary (i / faces) (i mod faces))
            (filter (fun i => nth i conn 0 <? 0)%Z (seq 0 (n_threads * faces)))).
Proof. exact C57_extract_partial_holds. Qed.
Print Assumptions C57_extract_partial.

Example C57_example :
  length [-1; 2; 1; -1]%Z mod 2 = 0 /\ 2 <= length [-1; 2; 1; -1]%Z / 2 /\
  extract_all 8 (fun i j => (i, j)) 2 2 2 [-1; 2; 1; -1]%Z = Some [(0, 0); (1, 1)].
Proof. exact C57_example_holds. Qed.

(** C57 fails: one thread, two patches: the second patch is ignored. *)
Theorem C57_refuted : forall hc,
  extract_all hc (fun i j => (i, j)) 2 2 1 [-1; 2; 1; -1]%Z = Some [(0, 0)].
Proof. exact C57_refuted_holds. Qed.
Print Assumptions C57_refuted.
