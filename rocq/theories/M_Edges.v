(** Model of extract.edges of a single spline (splinepy/helpme/extract.py 18-121).

    [eval]: spline.evaluate of one query, the theorems hold for every such function.
    range_to_edges and Edges.concat belong to gustaf and are modelled as documented there. *)
From Coq Require Import List Arith ZArith QArith Qcanon.
From Verif Require Import Base BaseRadix BaseQc S_Value M_Grid M_Knots.
Import ListNotations.
Local Open Scope list_scope.
Local Open Scope nat_scope.

(** Vertices and pairs of vertex ids. *)
Definition mesh := (list (list Qc) * list (nat * nat))%type.

(** gustaf connec.range_to_edges((0, n), closed=False) *)
Definition range_to_edges (n : nat) : list (nat * nat) := map (fun j => (j, S j)) (seq 0 (n - 1)).
Definition move_edge (k : nat) (e : nat * nat) : nat * nat := (fst e + k, snd e + k).
(** gustaf Edges.concat: ids move by the number of vertices before *)
Fixpoint concat_meshes (k : nat) (ms : list mesh) : mesh :=
  match ms with
  | [] => ([], [])
  | (v, e) :: ms => let (vs, es) := concat_meshes (k + length v) ms in (v ++ vs, map (move_edge k) e ++ es)
  end.

(** 71-75: relevant_knots; unique_knots is a list, parametric_bounds.T as well *)
Definition relevant_knots (eps : Qc) (all_knots : bool) (s : spline) : list (list Qc) :=
  if all_knots then map (axis_unique eps) (sp_axes s) else map (fun a => [ax_lower a; ax_upper a]) (sp_axes s).

(** 91-93 *)
Definition reorder_mask (para_dim i : nat) : list nat := seq 1 i ++ [0] ++ seq (1 + i) (para_dim - (1 + i)).

(** 78-119: the lines along axis [i]; [None]: an exception of cartesian_product *)
Definition axis_lines (eval : list Qc -> list Qc) (eps : Qc) (all_knots : bool) (s : spline) (resolution : list nat) (i : nat) : option mesh :=
  let n := length (sp_axes s) in
  let split_knots := remove_at i (relevant_knots eps all_knots s) in                               (* 79-80 *)
  let n_knot_lines := fold_right Nat.mul 1 (map (@length Qc) split_knots) in                        (* 81 *)
  let r := nth i resolution 0 in
  let samples := linspace (nth i (map ax_lower (sp_axes s)) 0%Qc) (nth i (map ax_upper (sp_axes s)) 0%Qc) r in
  match cartesian_product (samples :: split_knots) true with                                        (* 94-98 *)
  | None => None
  | Some rows =>
      let queries := map (fun row => map (fun c => nth c row 0%Qc) (reorder_mask n i)) rows in
      Some (map eval queries,
            concat (map (fun j => map (move_edge (r * j)) (range_to_edges r)) (seq 0 n_knot_lines)))  (* 101-117 *)
  end.

(** 18-121; [resolution] has one entry per axis (enforce_len); for curves its largest entry counts. *)
Definition edges (eval : list Qc -> list Qc) (eps : Qc) (s : spline) (resolution : list nat) (all_knots : bool) : option mesh :=
  if length (sp_axes s) =? 1                                                                         (* 43-62 *)
  then let r := fold_right Nat.max 0 resolution in
       match grid_setup (map ax_lower (sp_axes s) ++ map ax_upper (sp_axes s)) [Z.of_nat r] with
       | None => None
       | Some g => Some (map (fun k => eval (id_to_grid_point g k)) (seq 0 (grid_size g)), range_to_edges r)
       end
  else option_map (concat_meshes 0) (all_some (map (axis_lines eval eps all_knots s resolution) (seq 0 (length (sp_axes s))))).

(** 43-69 for a Multipatch, with the evaluation of each patch: curves are sampled patch by patch and
    numbered with [resolution] vertices per patch; other patches are drawn one by one. *)
Definition edges_multipatch (eps : Qc) (patches : list ((list Qc -> list Qc) * spline)) (para_dim : nat) (resolution : list nat) (all_knots : bool) : option mesh :=
  let parts := all_some (map (fun p => edges (fst p) eps (snd p) resolution all_knots) patches) in
  if para_dim =? 1
  then let r := fold_right Nat.max 0 resolution in
       option_map (fun ms => (concat (map fst ms), concat (map (fun i => map (move_edge (i * r)) (range_to_edges r)) (seq 0 (length patches))))) parts
  else option_map (concat_meshes 0) parts.
