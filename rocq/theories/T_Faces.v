(** Property theorems C89: the meshes of extract.faces, extract.volumes and the control meshes. *)
From Coq Require Import List Arith ZArith QArith Qcanon Lia.
From Verif Require Import Base BaseQc S_Grid S_Spline S_Value M_Extract M_Faces S_Faces P_Spline P_Extract P_FacesClosed P_FacesTop W_KnotInsert P_Faces W_Faces.
Import ListNotations.
Local Open Scope list_scope.
Local Open Scope nat_scope.

(** C89: the mesh of a surface has one vertex for each position of the sample grid, its point is that of
    the spline, and one face for each cell of the grid. *)
Theorem C89_surface :
  forall dim s res, length (sp_axes s) = 2 -> length res = 2 -> Forall (fun r => 2 <= r) res ->
  exists P F, faces dim s res = Some (map (point_at dim s res) P, F) /\
    NoDup P /\ (forall ix, In ix P <-> position res ix) /\ Forall (Forall (fun v => v < length P)) F /\
    NoDup (placed P F) /\ forall q, In q (placed P F) <-> exists c, cell res c /\ q = map (shifted c) square_corners.
Proof. exact C89_surface_holds. Qed.
Print Assumptions C89_surface.

(** C89: the mesh of a volume in space, likewise. *)
Theorem C89_volume :
  forall s res, length (sp_axes s) = 3 -> length res = 3 -> Forall (fun r => 2 <= r) res ->
  exists P V, volumes 3 s res = Some (map (point_at 3 s res) P, V) /\
    NoDup P /\ (forall ix, In ix P <-> position res ix) /\ Forall (Forall (fun v => v < length P)) V /\
    NoDup (placed P V) /\ forall q, In q (placed P V) <-> exists c, cell res c /\ q = map (shifted c) cube_corners.
Proof. exact C89_volume_holds. Qed.
Print Assumptions C89_volume.

(** C89: the faces of a volume are the unit squares on the surface of its sample grid, each once; their
    points are those of the volume.  This holds for equal and for different resolutions. *)
Theorem C89_volume_faces :
  forall dim s res, sp_wf s -> length (sp_axes s) = 3 -> Forall ax_clamped (sp_axes s) -> length res = 3 -> Forall (fun r => 2 <= r) res ->
  exists P F, faces dim s res = Some (map (point_at dim s res) P, F) /\ Forall (position res) P /\ Forall (Forall (fun v => v < length P)) F /\
    NoDup (placed P F) /\ forall q, In q (placed P F) <-> surface_square res q.
Proof. exact C89_volume_faces_holds. Qed.
Print Assumptions C89_volume_faces.

(** C89: that surface is closed: each edge of a square belongs to exactly one other square. *)
Theorem C89_closed :
  forall res q x y, length res = 3 -> Forall (fun r => 2 <= r) res -> surface_square res q -> has_edge q x y ->
  exists q', surface_square res q' /\ has_edge q' x y /\ q' <> q /\
    forall q'', surface_square res q'' -> has_edge q'' x y -> q'' = q \/ q'' = q'.
Proof. exact C89_closed_holds. Qed.
Print Assumptions C89_closed.

(** C89: several surfaces or volumes: one vertex for each patch and position, and the cells of each patch. *)
Theorem C89_multipatch :
  forall dim patches r, 2 <= r ->
  (Forall (fun s => length (sp_axes s) = 2) patches ->
   exists P F, faces_multipatch dim patches r = Some (map (patch_point dim patches [r; r]) P, F) /\
    NoDup P /\ (forall p ix, In (p, ix) P <-> p < length patches /\ position [r; r] ix) /\ Forall (Forall (fun v => v < length P)) F /\
    NoDup (map (map (fun v => nth v P (0, []))) F) /\
    forall q, In q (map (map (fun v => nth v P (0, []))) F) <-> exists p c, p < length patches /\ cell [r; r] c /\ q = map (fun o => (p, shifted c o)) square_corners) /\
  (Forall (fun s => length (sp_axes s) = 3) patches ->
   exists P F, volumes_multipatch dim patches r = Some (map (patch_point dim patches [r; r; r]) P, F) /\
    NoDup P /\ (forall p ix, In (p, ix) P <-> p < length patches /\ position [r; r; r] ix) /\ Forall (Forall (fun v => v < length P)) F /\
    NoDup (map (map (fun v => nth v P (0, []))) F) /\
    forall q, In q (map (map (fun v => nth v P (0, []))) F) <-> exists p c, p < length patches /\ cell [r; r; r] c /\ q = map (fun o => (p, shifted c o)) cube_corners).
Proof. exact C89_multipatch_holds. Qed.
Print Assumptions C89_multipatch.

(** C89: the control mesh has the control points as vertices and the cells of the control grid. *)
Theorem C89_control_mesh :
  forall s, sp_wf s -> 1 <= length (sp_axes s) <= 3 ->
  exists F, control_mesh s = Some (sp_cps s, F) /\ NoDup F /\
    forall f, In f F <-> exists c, cell (sp_res s) c /\ f = map (fun o => flat_id (sp_res s) (shifted c o)) (unit_corners (length (sp_axes s))).
Proof. exact C89_control_mesh_holds. Qed.
Print Assumptions C89_control_mesh.

(** C89: the surface is not oriented: neighbouring squares of the mesh run along their common edge in the
    same direction, for every volume and every resolution. *)
Theorem C89_orientation_refuted :
  forall dim s res, sp_wf s -> length (sp_axes s) = 3 -> Forall ax_clamped (sp_axes s) -> length res = 3 -> Forall (fun r => 2 <= r) res ->
  exists P F q q' x y, faces dim s res = Some (map (point_at dim s res) P, F) /\
    In q (placed P F) /\ In q' (placed P F) /\ q <> q' /\ edge_of q x y /\ edge_of q' x y.
Proof. exact C89_orientation_refuted_holds. Qed.
Print Assumptions C89_orientation_refuted.

Example C89_box_sound : sp_wf C89_box /\ Forall ax_clamped (sp_axes C89_box).
Proof. exact C89_box_sound_holds. Qed.

Example C89_box_faces : option_map (fun m => (length (fst m), length (snd m))) (faces 3 C89_box [2; 3; 4]) = Some (52, 22).
Proof. exact C89_box_faces_holds. Qed.

Example C89_box_uniform : option_map (fun m => (length (fst m), hd [] (snd m), last (snd m) [])) (faces 3 C89_box [3; 3; 3]) = Some (54, [0; 1; 4; 3], [49; 50; 53; 52]).
Proof. exact C89_box_uniform_holds. Qed.

Example C89_box_volumes : option_map (fun m => (length (fst m), snd m)) (volumes 3 C89_box [2; 2; 3]) =
  Some (12, [[0; 1; 3; 2; 4; 5; 7; 6]; [4; 5; 7; 6; 8; 9; 11; 10]]).
Proof. exact C89_box_volumes_holds. Qed.

Example C89_patch_faces : faces 2 C89_patch [3; 2] = Some ([[0; 0]; [qc 1 2; 0]; [1; 0]; [0; 1]; [qc 1 2; qc 3 2]; [1; qc 2 1]]%Qc, [[0; 1; 4; 3]; [1; 2; 5; 4]]).
Proof. exact C89_patch_faces_holds. Qed.

Example C89_patches : option_map snd (faces_multipatch 2 [C89_patch; C89_patch] 2) = Some [[0; 1; 3; 2]; [4; 5; 7; 6]].
Proof. exact C89_patches_holds. Qed.

Example C89_edge : surface_square [2; 3; 4] (square 0 1 [1; 2]) /\ has_edge (square 0 1 [1; 2]) [1; 1; 2] [1; 2; 2].
Proof. exact C89_edge_holds. Qed.

Example C89_box_control : option_map snd (control_mesh C89_box) = Some [[0; 1; 3; 2; 4; 5; 7; 6]; [4; 5; 7; 6; 8; 9; 11; 10]].
Proof. exact C89_box_control_holds. Qed.