(** Model of the search for patch interfaces, src/py/py_multipatch.cpp.

    Points are rows of rationals; [sqrt] is std::sqrt, an oracle (its contract
    is stated in S_Interfaces.v).  The array of face centers is n rows of equal
    length [dim].  C++ int is nat or Z. *)
From Coq Require Import List Arith ZArith Bool QArith Qcanon.
From Verif Require Import Base BaseQc M_Knots M_Threads.
Import ListNotations.
Local Open Scope nat_scope.

Section Interfaces.
Variable sqrt : Qc -> Qc.

Definition coord (p : list Qc) (d : nat) : Qc := nth d p 0%Qc.

(** InterfacesFromBoundaryCenters 573-583: extent of the points in one dimension. *)
Definition upper_of (ps : list (list Qc)) (d : nat) : Qc :=
  fold_left (fun m p => if qltb (coord p d) m then m else coord p d) ps (coord (hd [] ps) d).
Definition lower_of (ps : list (list Qc)) (d : nat) : Qc :=
  fold_left (fun m p => if qltb m (coord p d) then m else coord p d) ps (coord (hd [] ps) d).
(** 587: maxvertex - minvertex. *)
Definition extent (dim : nat) (ps : list (list Qc)) : list Qc :=
  map (fun d => upper_of ps d - lower_of ps d)%Qc (seq 0 dim).

(** FindConnectivityFromCenters 441-457: the normalised metric. *)
Definition normed (metric : list Qc) : list Qc :=
  let norm := sqrt (qsum (map (fun x => x * x)%Qc metric)) in
  if qltb norm (qc 1 100000000000000000000) then map (fun _ => 1%Qc) metric
  else map (fun x => x * (1 / norm))%Qc metric.

(** 460-471 *)
Definition sq_distance (dim : nat) (p q : list Qc) : Qc :=
  qsum (map (fun d => (coord q d - coord p d) * (coord q d - coord p d))%Qc (seq 0 dim)).

(** 477-486: the loop overwrites metric_v, so the last product remains. *)
Definition scalar (dim : nat) (normed : list Qc) (p : list Qc) : Qc :=
  fold_left (fun _ j => nth j normed 0 * coord p j)%Qc (seq 1 (dim - 1))
            (nth 0 normed 0 * coord p 0)%Qc.

Section Search.
Variables (tol : Qc) (sm : nat -> Qc) (d2 : nat -> nat -> Qc).

(** 499-514: [rest] are the points after [lo] in sorted order. *)
Fixpoint duplicate (lo : nat) (rest : list nat) : option nat :=
  match rest with
  | [] => None
  | up :: rest =>
      if qltb (sm up - sm lo)%Qc tol
      then if qltb (d2 lo up) (tol * tol)%Qc then Some up else duplicate lo rest
      else None
  end.

(** 492-543; [None]: conflicting faces, an exception. *)
Fixpoint connect (order : list nat) (conn : list Z) : option (list Z) :=
  match order with
  | [] => Some conn
  | lo :: rest =>
      match rest with
      | [] => Some (if (nth lo conn 0 =? -2)%Z then set_nth conn lo (-1)%Z else conn)  (* 546-549 *)
      | _ =>
          match duplicate lo rest with
          | Some up =>
              if (nth lo conn 0 =? -2)%Z
              then connect rest (set_nth (set_nth conn lo (Z.of_nat up)) up (Z.of_nat lo))
              else None
          | None =>
              connect rest (if (nth lo conn 0 =? -2)%Z then set_nth conn lo (-1)%Z else conn)
          end
      end
  end.
End Search.

Inductive outcome :=
| Connected (conn : list Z)
| Conflict                  (* 525-530: more than two points in the same position *)
| BadShape                  (* 416-430 *)
| BadAccess.                (* undefined: no points, or no parametric dimension *)

(** FindConnectivityFromCenters 397-554.  The table is flattened; row i of the
    result are the faces of patch i. *)
Definition find_connectivity (dim : nat) (ps : list (list Qc)) (para_dim : nat)
  (metric : list Qc) (tol : Qc) : outcome :=
  if para_dim =? 0 then BadAccess                               (* 405: division by zero *)
  else if negb (length ps mod (para_dim * 2) =? 0) then BadShape
  else if negb (length metric =? dim) then BadShape
  else if length ps =? 0 then BadAccess
  else
    let nm := normed metric in
    let sms := map (scalar dim nm) ps in
    match connect tol (fun i => nth i sms 0%Qc)
            (fun i j => sq_distance dim (nth i ps []) (nth j ps []))
            (stable_argsort sms) (map (fun _ => (-2)%Z) ps) with
    | Some conn => Connected conn
    | None => Conflict
    end.

(** InterfacesFromBoundaryCenters 556-592. *)
Definition interfaces_from_centers (dim : nat) (ps : list (list Qc)) (tol : Qc) (para_dim : nat)
  : outcome :=
  if length ps =? 0 then BadAccess else
  find_connectivity dim ps para_dim (extent dim ps) tol.
End Interfaces.

(** GetInterfaceOrientations 718-755: the table of connected pairs, patch and
    face of either side.  The third part of each row, the axis mapping, is
    modelled below. *)
Definition pairs (faces : nat) (conn : list Z) : list (nat * nat * (nat * nat)) :=
  flat_map (fun i =>
    let c := nth i conn 0%Z in
    if (0 <=? c)%Z && (Z.of_nat i <? c)%Z
    then [(i / faces, i mod faces, (Z.to_nat c / faces, Z.to_nat c mod faces))]
    else []) (seq 0 (length conn)).

(** * Orientation of one interface *)
Section Orientation.
Variable sqrt : Qc -> Qc.

Definition dot (u v : list Qc) : Qc := qsum (map (fun xy => fst xy * snd xy)%Qc (combine u v)).

(** GetInterfaceOrientation 673-695: the axis of the second patch with a
    parallel tangent.  [s] and [je] are columns of the Jacobians at the face centers.
    A zero norm makes the quotient NaN, and the comparison false. *)
Definition parallel_axis (tol : Qc) (s : list Qc) (je : list (list Qc)) : option (nat * bool) :=
  option_map (fun je => (fst je, qltb 0 (dot s (snd je))))
    (find (fun e => let q := sqrt (dot s s * dot (snd e) (snd e))%Qc in
                    negb (qeqb q 0) && qltb (1 - tol) (qabs (dot s (snd e) / q)))%Qc
          (combine (seq 0 (length je)) je)).

(** 592-697: for each axis of the first patch the axis of the second one and
    whether both point in the same direction; [None]: the two entries of the
    returned array stay uninitialised. *)
Definition orientation (tol : Qc) (js je : list (list Qc)) (face_start face_end : nat)
  : list (option (nat * bool)) :=
  map (fun i =>
    if i =? face_start / 2
    then Some (face_end / 2, xorb (face_start mod 2 =? 0) (face_end mod 2 =? 0))
    else parallel_axis tol (nth i js []) je) (seq 0 (length js)).
End Orientation.

(** * Extraction of all boundary splines *)

(** ExtractAllBoundarySplines 792-846: the threads share [0, n_threads) instead
    of the patches (the chunk size of 823 is computed but not used).
    [boundary i j]: SplinepyExtractBoundary.  [None]: the interface table or
    the list of splines is read behind its end, or nothing is launched. *)
Definition extract_all {A} (hc : Z) (boundary : nat -> nat -> A)
  (n_patches faces n_threads : nat) (conn : list Z) : option (list A) :=
  match launched (nthread_execution hc (Z.of_nat n_threads) (Z.of_nat n_threads)) with
  | None => None
  | Some tasks =>
      let ids := flat_map (fun t => map Z.to_nat (zrange (t_begin t) (t_end t))) tasks in
      if forallb (fun i => i <? n_patches) ids
      then Some (flat_map (fun i =>
             flat_map (fun j => if (nth (i * faces + j) conn 0 <? 0)%Z then [boundary i j] else [])
                      (seq 0 faces)) ids)
      else None
  end.
