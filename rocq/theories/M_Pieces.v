(** Model of src/splines/helpers/extract.cpp (ExtractBezierPatchIDs) and of
    include/splinepy/splines/helpers/extract.hpp 226-332 (ExtractBezierPatches).
    std::size_t / int are nat; overflow is not modelled. *)
From Coq Require Import List Arith ZArith QArith Qcanon.
From Verif Require Import Base BaseRadix BaseQc S_Value M_Knots M_Extract.
Import ListNotations.
Local Open Scope nat_scope.

(** extract.cpp 38-39, 57-58: bezier_index_offsets. *)
Fixpoint index_offsets (b : nat) (degrees : list nat) : list nat :=
  match degrees with [] => [] | d :: degrees => b :: index_offsets (b * (d + 1)) degrees end.

(** extract.cpp 43-46, 59-63: control_mesh_resolution. *)
Definition mesh_resolution (m : list nat) (d : nat) : nat := fold_left Nat.add m 0 - d - 1.

(** extract.cpp 47, 54-55: n_patches_per_para_dim. *)
Definition n_patches (m : list nat) : nat := length m - 1.

(** extract.cpp 76-93: the coordinates of the patch and the running offsets. *)
Fixpoint advance (ms : list (list nat)) (coords offs : list nat) (ii : nat) : list nat * list nat :=
  match ms, coords, offs with
  | m :: ms, c :: coords, o :: offs =>
      let pc := ii mod n_patches m in
      let co :=
        if c =? pc then (c, o)
        else (pc, if pc =? 0 then 0 else o + nth pc m 0) in
      let r := advance ms coords offs ((ii - pc) / n_patches m) in
      (fst co :: fst r, snd co :: snd r)
  | _, _, _ => ([], [])
  end.

(** extract.cpp 102-114 *)
Fixpoint global_id (i_local : nat) (boffs degrees offs res : list nat) (layers : nat) : nat :=
  match boffs, degrees, offs, res with
  | b :: boffs, d :: degrees, o :: offs, r :: res =>
      ((i_local / b) mod (d + 1) + o) * layers + global_id i_local boffs degrees offs res (layers * r)
  | _, _, _, _ => 0
  end.

(** extract.cpp 94-117: ids of one patch. *)
Definition ids_of_patch (ms : list (list nat)) (degrees offs : list nat) : list nat :=
  let res := map (fun md => mesh_resolution (fst md) (snd md)) (combine ms degrees) in
  map (fun i => global_id i (index_offsets 1 degrees) degrees offs res 1)
      (seq 0 (fold_left (fun a d => a * (d + 1)) degrees 1)).

(** extract.cpp 71-118: the loop over the patches; [todo] patches are left. *)
Fixpoint patch_loop (ms : list (list nat)) (degrees coords offs : list nat) (i_patch todo : nat)
  : list (list nat) :=
  match todo with
  | 0 => []
  | S todo =>
      let r := advance ms coords offs i_patch in
      ids_of_patch ms degrees (snd r) :: patch_loop ms degrees (fst r) (snd r) (S i_patch) todo
  end.

(** extract.cpp 29-119 *)
Definition bezier_patch_ids (ms : list (list nat)) (degrees : list nat) : list (list nat) :=
  patch_loop ms degrees (repeat 0 (length ms)) (repeat 0 (length ms)) 0
    (fold_left (fun a m => a * n_patches m) ms 1).

(** extract.hpp 264-331 for the spline after the knots required for C0 were
    inserted (246-262, BSplineLib): rows are copied by id; rational types hold
    weighted rows, each copied row is multiplied by 1/w.  [None]: an id outside
    the control mesh.  Multiplicities: run lengths of near-equal knots, see
    M_Knots. *)
Definition unweighted (p : list Qc) (w : Qc) : list Qc :=
  map (fun x => (x * (1 / w))%Qc) (map (Qcmult w) p).
Definition piece (s : spline) (ids : list nat) : option spline :=
  let axes := map (fun a => BezierAxis (ax_degree a)) (sp_axes s) in
  match pick (sp_cps s) ids, sp_weights s with
  | Some cps, None => Some (Spl axes cps None)
  | Some cps, Some ws =>
      match pick ws ids with
      | None => None
      | Some ws => Some (Spl axes (map (fun pw => unweighted (fst pw) (snd pw)) (combine cps ws)) (Some ws))
      end
  | None, _ => None
  end.
Definition bezier_pieces (eps : Qc) (s : spline) : option (list spline) :=
  all_some (map (piece s)
    (bezier_patch_ids (map (axis_multiplicities eps) (sp_axes s)) (map ax_degree (sp_axes s)))).
