(** Model of src/py/py_multipatch.cpp: compatibility checks, control point
    numbering, queries over all patches and caches of a multipatch. *)
From Coq Require Import String List Arith ZArith Bool QArith Qcanon.
From Verif Require Import Base BaseQc M_Grid M_Threads M_Boundaries.
Import ListNotations.
Local Open Scope nat_scope.

(** * Compatibility checks *)

(** What the checks see of a patch: SplinepySplineName, SplinepyParaDim,
    SplinepyDim, SplinepyCurrentProperties (degrees),
    SplinepyControlMeshResolutions, SplinepyIsNull. *)
Record patch := Patch {
  p_name : string; p_para_dim : nat; p_dim : nat;
  p_degrees : list nat; p_cmr : list nat; p_null : bool }.

(** Keys of the map [mismatches] (121, 257). *)
Inductive key := KName | KParaDim | KDim | KDegrees | KCmr.
Definition all_keys : list key := [KName; KParaDim; KDim; KDegrees; KCmr].
Definition key_eqb (a b : key) : bool :=
  match a, b with
  | KName, KName | KParaDim, KParaDim | KDim, KDim | KDegrees, KDegrees | KCmr, KCmr => true
  | _, _ => false
  end.

Fixpoint nats_eqb (a b : list nat) : bool :=
  match a, b with
  | [], [] => true
  | x :: a, y :: b => (x =? y) && nats_eqb a b
  | _, _ => false
  end.

(** Arguments of RaiseMismatch 113-119; 0, "" and {} mean "do not check". *)
Record request := Request {
  r_name : string; r_para_dim : nat; r_dim : nat; r_degrees : list nat; r_cmr : list nat }.
Definition given (l : list nat) : bool := negb (length l =? 0).

(** 124-155: the check flags. *)
Definition checks (r : request) (k : key) : bool :=
  match k with
  | KName => negb (String.eqb (r_name r) "")
  | KDim => 0 <? r_dim r
  | KDegrees => given (r_degrees r)
  | KCmr => given (r_cmr r)
  | KParaDim => (0 <? r_para_dim r) || given (r_degrees r) || given (r_cmr r)
  end.
(** 131, 144 *)
Definition ref_para_dim (r : request) : nat :=
  if given (r_degrees r) then length (r_degrees r) else r_para_dim r.
(** 155-166 *)
Definition sane (r : request) : bool :=
  if checks r KParaDim
  then forallb (fun c => (c =? ref_para_dim r) || (c =? 0))
               [r_para_dim r; length (r_degrees r); length (r_cmr r)]
  else true.

(** 176-217: the keys under which one patch is recorded. *)
Definition step1 (r : request) (p : patch) : list key :=
  if p_null p then [] else
  let matches := negb (checks r KParaDim && negb (ref_para_dim r =? p_para_dim p)) in
  (if checks r KName && negb (String.eqb (r_name r) (p_name p)) then [KName] else []) ++
  (if matches then [] else [KParaDim]) ++
  (if checks r KDim && negb (r_dim r =? p_dim p) then [KDim] else []) ++
  (if matches
   then (if checks r KDegrees && negb (nats_eqb (p_degrees p) (r_degrees r)) then [KDegrees] else []) ++
        (if checks r KCmr && negb (nats_eqb (p_cmr p) (r_cmr r)) then [KCmr] else [])
   else []).

(** Arguments of the second RaiseMismatch, 256-263. *)
Record flags := Flags { f_name : bool; f_dims : bool; f_field_dim : nat; f_degrees : bool; f_cmr : bool }.
(** 301-352 *)
Definition step2 (f : flags) (p q : patch) : list key :=
  let matches := negb (f_dims f && negb (p_para_dim p =? p_para_dim q)) in
  (if matches then [] else [KParaDim]) ++
  (if f_dims f && negb (f_field_dim f =? p_dim q) then [KDim] else []) ++
  if p_null q || p_null p then [] else
  (if f_name f && negb (String.eqb (p_name p) (p_name q)) then [KName] else []) ++
  (if matches && (f_degrees f || f_cmr f)
   then (if f_degrees f && negb (nats_eqb (p_degrees p) (p_degrees q)) then [KDegrees] else []) ++
        (if f_cmr f && negb (nats_eqb (p_cmr p) (p_cmr q)) then [KCmr] else [])
   else []).

Inductive verdict :=
| Matches
| Mismatches (report : key -> list nat)   (* PrintAndThrowError with the ids of every key *)
| BadRequest                              (* PrintAndThrowError about the arguments *)
| Crash.                                  (* undefined behaviour *)

(** 174-232 and 296-367: the threads' vectors of a key, concatenated. *)
Definition thread_lists (step : nat -> list key) (total nthreads : Z) (tasks : list task) (k : key)
  : list nat :=
  flat_map (fun t =>
    filter (fun i => existsb (key_eqb k) (step i)) (map Z.to_nat (strided_indices nthreads total t)))
    tasks.
Definition judge (step : nat -> list key) (hc : Z) (total : nat) (nthreads : Z) : verdict :=
  match launched (nthread_execution hc (Z.of_nat total) nthreads) with
  | None => Crash
  | Some tasks =>
      let report := thread_lists step (Z.of_nat total) nthreads tasks in
      if forallb (fun k => length (report k) =? 0) all_keys then Matches else Mismatches report
  end.

Definition no_patch : patch := Patch "" 0 0 [] [] true.
(** RaiseMismatch 113-254, nthreads >= 1 (otherwise the strided loops diverge). *)
Definition raise_mismatch (hc : Z) (r : request) (ps : list patch) (nthreads : Z) : verdict :=
  if sane r then judge (fun i => step1 r (nth i ps no_patch)) hc (length ps) nthreads
  else BadRequest.
(** RaiseMismatch 256-394. *)
Definition raise_mismatch2 (hc : Z) (f : flags) (ps qs : list patch) (nthreads : Z) : verdict :=
  if length ps =? length qs
  then judge (fun i => step2 f (nth i ps no_patch) (nth i qs no_patch)) hc (length ps) nthreads
  else BadRequest.

(** A chunk loop over [total] items stays in range: ToCoreSplineVector 41-57,
    59-86, AddFields 1556-1586, GetControlPoints 1646-1659. *)
Definition chunk_ids (hc : Z) (total : nat) (nthreads : Z) : option (list nat) :=
  match launched (nthread_execution hc (Z.of_nat total) nthreads) with
  | None => None
  | Some tasks =>
      let ids := map Z.to_nat (flat_map chunk_indices tasks) in
      if forallb (fun i => i <? total) ids then Some ids else None
  end.

(** SetPatchesNThreads 1084-1103 and SetPatchesWithNullSplines 1105-1126.  The
    patches are stored before the check (1089, 1092). *)
Definition set_patches (hc : Z) (ps : list patch) (nthreads : Z) : verdict :=
  match chunk_ids hc (length ps) nthreads with
  | None => Crash
  | Some _ =>
      match ps with
      | [] => Crash                                                  (* core_patches_[0] *)
      | p0 :: _ => raise_mismatch hc (Request "" (p_para_dim p0) (p_dim p0) [] []) ps nthreads
      end
  end.

(** 74-79: the null spline that stands for None. *)
Definition null_patch (para_dim dim : nat) : patch := Patch "NullSpline" para_dim dim [] [] true.
Definition field_patches (para_dim field_dim : nat) (field : list (option patch)) : list patch :=
  map (fun q => match q with Some q => q | None => null_patch para_dim field_dim end) field.

Definition is_matches (v : verdict) : bool := match v with Matches => true | _ => false end.
Definition is_crash (v : verdict) : bool := match v with Crash => true | _ => false end.

Inductive added :=
| Added                        (* 1604: the fields are appended *)
| Rejected (ids : list nat)    (* 1592-1594: no field is appended *)
| CtorRaised                   (* 1564: exception of the constructor, one thread *)
| Terminated                   (* 1564: uncaught exception in a thread *)
| AddCrash.

(** AddFields 1535-1605.  The patches are not empty (ParaDim, 1549). *)
Definition add_fields (hc : Z) (ps : list patch) (f : flags) (fields : list (list (option patch)))
  (nthreads : Z) : added :=
  let para_dim := p_para_dim (hd no_patch ps) in
  match chunk_ids hc (length fields) nthreads with
  | None => AddCrash
  | Some ids =>
      let qs i := field_patches para_dim (f_field_dim f) (nth i fields []) in
      let made i := set_patches hc (qs i) 1 in
      if existsb (fun i => is_crash (made i)) ids then AddCrash
      else if negb (forallb (fun i => is_matches (made i)) ids)
      then match nthread_execution hc (Z.of_nat (length fields)) nthreads with
           | Inline _ => CtorRaised
           | _ => Terminated
           end
      else match filter (fun i => negb (is_matches (raise_mismatch2 hc f ps (qs i) 1))) ids with
           | [] => Added
           | bad => Rejected bad
           end
  end.

(** * Control points *)

(** GetControlPointOffsets 1619-1631. *)
Fixpoint offsets_from (offset : nat) (sizes : list nat) : list nat :=
  match sizes with
  | [] => []
  | s :: sizes => offset :: offsets_from (offset + s) sizes
  end.
Definition offsets {R} (coords : list (list R)) : list nat := offsets_from 0 (map (@length R) coords).
(** GetNumberOfControlPoints 1610-1617. *)
Definition n_control_points {R} (coords : list (list R)) : nat :=
  fold_left (fun n c => n + length c) coords 0.

(** Rows written into a result array. *)
Definition put_rows {R} (buf : list R) (ws : list (nat * R)) : list R :=
  fold_left (fun b w => set_nth b (fst w) (snd w)) ws buf.
(** GetControlPoints 1646-1659: the rows written for the patches [ids]; [coords]
    are the control points of the patches. *)
Definition cp_writes {R} (coords : list (list R)) (ids : list nat) : list (nat * R) :=
  flat_map (fun i => combine (seq (nth i (offsets coords) 0) (length (nth i coords []))) (nth i coords [])) ids.

(** * Queries over all patches *)

(** Evaluate 1397-1428, Sample 1463-1528: the rows of the indices a strided loop
    visits; [eval p q] is the result of query [q] at patch [p]. *)
Definition strided_ids (hc : Z) (total : nat) (nthreads : Z) : option (list nat) :=
  match launched (nthread_execution hc (Z.of_nat total) nthreads) with
  | None => None
  | Some tasks => Some (map Z.to_nat (flat_map (strided_indices nthreads (Z.of_nat total)) tasks))
  end.
Definition eval_writes {R} (eval : nat -> nat -> R) (n_queries : nat) (ids : list nat) : list (nat * R) :=
  map (fun i => (i, eval (i / n_queries) (i mod n_queries))) ids.

(** Sample 1430-1533: the rows written.  [bounds p]: the parametric bounds of patch
    [p]; [None]: an exception of SetUp (in a thread: terminate) or undefined
    behaviour. *)
Definition grids (same : bool) (bounds : nat -> list Qc) (resolutions : list Z) (hc : Z)
  (n_patches : nat) (nthreads : Z) : option (nat -> nat -> list Qc) :=
  if same
  then match n_patches, grid_setup (bounds 0) resolutions with
       | S _, Some g =>
           let para_dim := length resolutions in
           let queries := grid_fill g (fun _ => 0%Qc) in
           Some (fun _ q => map (fun k => queries (q * para_dim + k)) (seq 0 para_dim))
       | _, _ => None
       end
  else match chunk_ids hc n_patches nthreads with
       | None => None
       | Some ids =>
           if forallb (fun i => match grid_setup (bounds i) resolutions with Some _ => true | None => false end) ids
           then Some (fun p q => match grid_setup (bounds p) resolutions with
                                 | Some g => id_to_grid_point g q
                                 | None => []
                                 end)
           else None
       end.
Definition sample_writes {R} (same : bool) (bounds : nat -> list Qc) (eval : nat -> list Qc -> R)
  (para_dim : nat) (resolution : Z) (hc : Z) (n_patches : nat) (nthreads : Z) : option (list (nat * R)) :=
  let n_queries := Z.to_nat resolution ^ para_dim in
  match grids same bounds (repeat resolution para_dim) hc n_patches nthreads,
        strided_ids hc (n_patches * n_queries) nthreads with
  | Some point, Some ids => Some (eval_writes (fun p q => eval p (point p q)) n_queries ids)
  | _, _ => None
  end.

(** scalar_type_wrapper.hpp 67-92: the centers of the faces in the parametric
    domain; [bounds] lower then upper. *)
Definition boundary_centers (para_dim : nat) (bounds : list Qc) : list (list Qc) :=
  flat_map (fun i =>
    map (fun side => map (fun j =>
           if i =? j then nth (j + side * para_dim) bounds 0%Qc
           else (qc 1 2 * (nth j bounds 0 + nth (j + para_dim) bounds 0))%Qc) (seq 0 para_dim))
        [0; 1]) (seq 0 para_dim).

(** * Caches *)
Section Cache.
Variables P B O : Type.
Variable sub_of : P -> B.                    (* SubMultipatch 1143-1160 *)
Variable conn_of : P -> list Z.              (* InterfacesFromBoundaryCenters *)
Variable boundary_of : P -> list nat -> B.   (* BoundaryMultipatch 1347-1375 *)
Variable faces_of : P -> nat.                (* 2 * ParaDim() *)
(** GetInterfaceOrientation: patch and face of both sides, tolerance. *)
Variable orient_of : P -> nat * nat * nat * nat -> Qc -> O.

(** The members of PyMultipatch, py_multipatch.hpp 211-250.  Empty arrays and
    null pointers are [None].  sub_patch_centers_ and boundary_ids_ are left out. *)
Record multipatch := Multipatch {
  m_patches : P;
  m_sub : option B; m_py_sub : option B;
  m_bpids : list nat;
  m_bmp : option B; m_py_bmp : option B;
  m_conn : option (list Z);
  m_orient : list (nat * nat * nat * nat * O) }.

Definition fresh (p : P) : multipatch := Multipatch p None None [] None None None [].

(** Clear 1071-1082 and SetPatchesNThreads 1084-1094: the python objects stay. *)
Definition assign_patches (m : multipatch) (p : P) : multipatch :=
  Multipatch p None (m_py_sub m) [] None (m_py_bmp m) None [].

(** GetInterfaces 1250-1264. *)
Definition get_interfaces (recompute : bool) (m : multipatch) : multipatch * list Z :=
  match m_conn m, recompute with
  | Some t, false => (m, t)
  | _, _ =>
      let t := conn_of (m_patches m) in
      (Multipatch (m_patches m) (m_sub m) (m_py_sub m) (m_bpids m) (m_bmp m) (m_py_bmp m)
                  (Some t) [], t)
  end.
(** SetInterfaces 1266-1284 (after the shape check). *)
Definition set_interfaces (m : multipatch) (t : list Z) : multipatch :=
  Multipatch (m_patches m) (m_sub m) (m_py_sub m) (m_bpids m) (m_bmp m) (m_py_bmp m) (Some t) [].
(** In-place edit of the array returned by [interfaces] (multipatch.py 268, 417, 535). *)
Definition edit_interfaces (m : multipatch) (f : list Z -> list Z) : multipatch :=
  let (m, t) := get_interfaces false m in
  Multipatch (m_patches m) (m_sub m) (m_py_sub m) (m_bpids m) (m_bmp m) (m_py_bmp m)
             (Some (f t)) (m_orient m).

(** BoundaryPatchIds 1286-1334. *)
Definition boundary_patch_ids (bid : Z) (m : multipatch) : multipatch * list nat :=
  if (bid <? 0)%Z && negb (length (m_bpids m) =? 0) then (m, m_bpids m)
  else
    let (m, t) := get_interfaces false m in
    if (bid <? 0)%Z
    then let ids := where_is (fun v => v <? 0)%Z t in
         (Multipatch (m_patches m) (m_sub m) (m_py_sub m) ids (m_bmp m) (m_py_bmp m)
                     (m_conn m) (m_orient m), ids)
    else (m, where_is (Z.eqb (- bid)) t).

(** BoundaryMultipatch 1338-1383. *)
Definition boundary_multipatch (bid : Z) (m : multipatch) : multipatch * B :=
  match (if (bid <? 0)%Z then m_bmp m else None) with
  | Some b => (m, b)
  | None =>
      let (m, ids) := boundary_patch_ids bid m in
      let b := boundary_of (m_patches m) ids in
      (if (bid <? 0)%Z
       then Multipatch (m_patches m) (m_sub m) (m_py_sub m) (m_bpids m) (Some b) (m_py_bmp m)
                       (m_conn m) (m_orient m)
       else m, b)
  end.
(** PyBoundaryMultipatch 1387-1395. *)
Definition py_boundary_multipatch (bid : Z) (m : multipatch) : multipatch * B :=
  if (bid <? 0)%Z
  then match m_py_bmp m with
       | Some b => (m, b)
       | None =>
           let (m, b) := boundary_multipatch bid m in
           (Multipatch (m_patches m) (m_sub m) (m_py_sub m) (m_bpids m) (m_bmp m) (Some b)
                       (m_conn m) (m_orient m), b)
       end
  else boundary_multipatch bid m.

(** SubMultipatch 1128-1167 and PySubMultipatch 1169-1174. *)
Definition py_sub_multipatch (m : multipatch) : multipatch * B :=
  match m_py_sub m with
  | Some b => (m, b)
  | None =>
      let b := match m_sub m with Some b => b | None => sub_of (m_patches m) end in
      (Multipatch (m_patches m) (Some b) (Some b) (m_bpids m) (m_bmp m) (m_py_bmp m)
                  (m_conn m) (m_orient m), b)
  end.

(** 720-753: patch and face of both sides of every interface. *)
Definition lines (faces : nat) (t : list Z) : list (nat * nat * nat * nat) :=
  map (fun i => let j := Z.to_nat (nth i t 0%Z) in (i / faces, i mod faces, j / faces, j mod faces))
      (filter (fun i => (0 <=? nth i t 0) && (Z.of_nat i <? nth i t 0))%Z (seq 0 (length t))).
(** GetInterfaceOrientations 699-790. *)
Definition get_orientations (tol : Qc) (m : multipatch) : multipatch * list (nat * nat * nat * nat * O) :=
  match m_orient m with
  | _ :: _ => (m, m_orient m)
  | [] =>
      let (m, t) := get_interfaces false m in
      let o := map (fun l => (l, orient_of (m_patches m) l tol)) (lines (faces_of (m_patches m)) t) in
      (Multipatch (m_patches m) (m_sub m) (m_py_sub m) (m_bpids m) (m_bmp m) (m_py_bmp m)
                  (m_conn m) o, o)
  end.

Inductive mop :=
| SetPatches (p : P) | SetInterfaces (t : list Z) | EditInterfaces (f : list Z -> list Z) | Recompute
| ReadInterfaces | ReadSub | ReadIds (bid : Z) | ReadBoundary (bid : Z) | ReadOrientations (tol : Qc).
Inductive answer :=
| Nothing | Table (t : list Z) | Patches (b : B) | Ids (l : list nat) 
| Orientations (o : list (nat * nat * nat * nat * O)).

Definition mstep (m : multipatch) (o : mop) : multipatch * answer :=
  match o with
  | SetPatches p => (assign_patches m p, Nothing)
  | SetInterfaces t => (set_interfaces m t, Nothing)
  | EditInterfaces f => (edit_interfaces m f, Nothing)
  | Recompute => let (m, t) := get_interfaces true m in (m, Table t)
  | ReadInterfaces => let (m, t) := get_interfaces false m in (m, Table t)
  | ReadSub => let (m, b) := py_sub_multipatch m in (m, Patches b)
  | ReadIds bid => let (m, l) := boundary_patch_ids bid m in (m, Ids l)
  | ReadBoundary bid => let (m, b) := py_boundary_multipatch bid m in (m, Patches b)
  | ReadOrientations tol => let (m, o) := get_orientations tol m in (m, Orientations o)
  end.
Definition mrun (m : multipatch) (ops : list mop) : multipatch :=
  fold_left (fun m o => fst (mstep m o)) ops m.
End Cache.
