(** Model of extract.faces, extract.volumes and the control meshes
    (splinepy/helpme/extract.py 124-405), with watertight=False.

    make_quad_faces, make_hexa_volumes, range_to_edges and concat belong to gustaf and are modelled
    as documented there: one column of ids per corner, ids with the first axis fastest.
    merge_vertices (watertight=True) is not modelled. *)
From Coq Require Import List Arith ZArith Bool QArith Qcanon.
From Verif Require Import Base BaseRadix BaseQc S_Value M_Grid M_Extract.
Import ListNotations.
Local Open Scope list_scope.
Local Open Scope nat_scope.

(** Vertices and lists of vertex ids. *)
Definition pmesh := (list (list Qc) * list (list nat))%type.

Definition plus_ix (c o : list nat) : list nat := map (fun xy => fst xy + snd xy) (combine c o).
Definition connect (corners : list (list nat)) (res : list nat) : list (list nat) :=
  map (fun c => map (fun o => undigits res (plus_ix c o)) corners) (f_indices (map pred res)).
Definition range_to_edges := connect [[0]; [1]].
Definition make_quad_faces := connect [[0; 0]; [1; 0]; [1; 1]; [0; 1]].
Definition make_hexa_volumes := connect [[0; 0; 0]; [1; 0; 0]; [1; 1; 0]; [0; 1; 0]; [0; 0; 1]; [1; 0; 1]; [1; 1; 1]; [0; 1; 1]].

Definition move (k : nat) (f : list nat) : list nat := map (fun v => v + k) f.
Fixpoint concat_pmeshes (k : nat) (ms : list pmesh) : pmesh :=
  match ms with
  | [] => ([], [])
  | (v, f) :: ms => let (vs, fs) := concat_pmeshes (k + length v) ms in (v ++ vs, map (move k) f ++ fs)
  end.
(** 138-142, 187-190, 258-266: the connectivity of one patch for each of [n] patches with [k] vertices *)
Definition repeated (n k : nat) (f : list (list nat)) : list (list nat) :=
  concat (map (fun i => map (move (i * k)) f) (seq 0 n)).

Section Faces.
Variable dim : nat.   (* physical dimension; boundary splines keep it *)

(** spline.sample; [None]: a resolution below 2 raises *)
Definition sample (s : spline) (res : list nat) : option (list (list Qc)) :=
  option_map (fun g => map (fun id => map (sp_value s (id_to_grid_point g id)) (seq 0 dim)) (seq 0 (grid_size g)))
    (grid_setup (map ax_lower (sp_axes s) ++ map ax_upper (sp_axes s)) (map Z.of_nat res)).
Definition sampled_mesh (connectivity : list (list nat)) (s : spline) (res : list nat) : option pmesh :=
  option_map (fun v => (v, connectivity)) (sample s res).

Definition boundary_of (e : extracted) : option spline := match e with Extracted b => Some b | _ => None end.
(** extract.boundaries() *)
Definition boundaries (s : spline) : option (list spline) :=
  match extract_boundaries s [] with Some l => all_some (map boundary_of l) | None => None end.

(** Multipatch.sample: patch after patch *)
Definition sample_all (patches : list spline) (res : list nat) : option (list (list Qc)) :=
  option_map (@concat _) (all_some (map (fun b => sample b res) patches)).

(** 124-145 *)
Definition uniform_3d_faces (s : spline) (r : nat) : option pmesh :=
  match boundaries s with
  | None => None
  | Some bs => option_map (fun v => (v, repeated (length bs) (r ^ 2) (make_quad_faces [r; r]))) (sample_all bs [r; r])
  end.

(** 148-222; [res] has one entry per axis *)
Definition faces (s : spline) (res : list nat) : option pmesh :=
  match length (sp_axes s), res with
  | 2, _ => sampled_mesh (make_quad_faces res) s res                                                       (* 193-199 *)
  | 3, [a; b; c] =>
      if (a =? b) && (b =? c) then uniform_3d_faces s (Nat.max a (Nat.max b c))                             (* 203-206 *)
      else match boundaries s with                                                                           (* 208-217 *)
           | None => None
           | Some bs =>
               option_map (concat_pmeshes 0)
                 (all_some (map (fun ib => sampled_mesh (make_quad_faces (remove_at (fst ib / 2) res)) (snd ib) (remove_at (fst ib / 2) res))
                                (combine (seq 0 (length bs)) bs)))
           end
  | _, _ => None                                                                                             (* 219 *)
  end.

(** 180-191 for a Multipatch of surfaces *)
Definition faces_multipatch (patches : list spline) (r : nat) : option pmesh :=
  option_map (fun v => (v, repeated (length patches) (r ^ 2) (make_quad_faces [r; r]))) (sample_all patches [r; r]).

(** 225-282 *)
Definition volumes (s : spline) (res : list nat) : option pmesh :=
  if (length (sp_axes s) =? 3) && (dim =? 3) then sampled_mesh (make_hexa_volumes res) s res else None.
Definition volumes_multipatch (patches : list spline) (r : nat) : option pmesh :=
  option_map (fun v => (v, repeated (length patches) (r ^ 3) (make_hexa_volumes [r; r; r]))) (sample_all patches [r; r; r]).
End Faces.

(** 301-405 *)
Definition control_mesh (s : spline) : option pmesh :=
  match length (sp_axes s) with
  | 1 => Some (sp_cps s, range_to_edges [length (sp_cps s)])
  | 2 => Some (sp_cps s, make_quad_faces (sp_res s))
  | 3 => Some (sp_cps s, make_hexa_volumes (sp_res s))
  | _ => None
  end.
