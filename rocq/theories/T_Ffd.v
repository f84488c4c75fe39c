(** Property theorems C50: free form deformation. *)
From Coq Require Import List Arith ZArith Lia Bool QArith Qcanon.
From Verif Require Import Base BaseQc S_Grid S_Spline P_Spline S_Value P_Value M_Core S_Core P_Core M_Knots S_Knots P_Knots
  M_Create P_Create P_Shapes W_Create P_Fit M_Ffd S_Ffd P_Ffd W_Ffd.
Import ListNotations.
Local Open Scope list_scope.
Local Open Scope nat_scope.

(** C50: after any sequence of assignments the vertices handed to the spline are
    in the unit cube: the padded bounding box of the mesh corresponds to it. *)
Theorem C50_unit :
  forall tol limit st m, (0 < tol)%Qc -> reachable tol limit st -> d_mesh st = Some m ->
  v_vertices m <> [] /\ (tol <= d_padding st)%Qc /\ exists q, d_q st = Some q /\ fits_cube (d_padding st) m q.
Proof. exact C50_unit_holds. Qed.
Print Assumptions C50_unit.

(** C50: a mesh and a spline set together fit: the spline has one parameter per
    coordinate of the mesh. *)
Theorem C50_dims :
  forall tol limit st m s, (0 < tol)%Qc -> reachable tol limit st -> d_mesh st = Some m -> d_spline st = Some s ->
  length (sp_axes s) = v_dim m.
Proof. exact C50_dims_holds. Qed.
Print Assumptions C50_dims.

(** C50: assigning a spline whose domain is its whole range of knots puts all
    vertices into its domain. *)
Theorem C50_domain :
  forall tol limit st m s0 st', (0 < tol)%Qc -> reachable tol limit st -> d_mesh st = Some m ->
  sp_wf s0 -> 1 <= length (sp_axes s0) <= limit -> Forall whole_range (sp_axes s0) ->
  set_spline st (Some s0) = Done st' ->
  exists s q, d_spline st' = Some s /\ d_q st' = Some q /\ length q = length (v_vertices m) /\ Forall (sp_domain s) q.
Proof. exact C50_domain_holds. Qed.
Print Assumptions C50_domain.

(** C50: with the default spline the deformed mesh is the mesh up to the
    padding, also after changing the padding. *)
Theorem C50_default :
  forall tol limit st m st' ps, (0 < tol)%Qc -> reachable tol limit st -> d_spline st = None -> mesh_ok m ->
  set_mesh limit st (Some m) = Done st' ->
  let st'' := run tol limit st' (map SetPadding ps) in
  exists m', get_mesh st'' = Some m' /\ within (d_padding st'') m m'.
Proof. exact C50_default_holds. Qed.
Print Assumptions C50_default.

(** C50: the padding is accepted if and only if it is at least the tolerance; a
    refused one changes nothing, an accepted one rescales the mesh. *)
Theorem C50_padding :
  forall tol limit st p, (0 < tol)%Qc -> reachable tol limit st ->
  ((exists st', set_padding tol limit st p = Done st') <-> (tol <= p)%Qc) /\
  (forall st', set_padding tol limit st p = Raised st' -> st' = st) /\
  (forall st' m, set_padding tol limit st p = Done st' -> d_mesh st = Some m ->
     d_mesh st' = Some m /\ exists q, d_q st' = Some q /\ fits_cube p m q).
Proof. exact C50_padding_holds. Qed.
Print Assumptions C50_padding.

(** C50, partial: a mesh is accepted if and only if it has vertices and either
    fits the spline, or no mesh of another dimension is set.  "Replacing the mesh
    by one of another dimension works" is refuted below; it works after mesh =
    None or after assigning a fitting spline to an object without mesh. *)
Theorem C50_replace_partial :
  forall tol limit st m, (0 < tol)%Qc -> reachable tol limit st -> mesh_ok m ->
  ((exists st', set_mesh limit st (Some m) = Done st') <->
     v_vertices m <> [] /\
     ((exists s, d_spline st = Some s /\ length (sp_axes s) = v_dim m) \/
      (1 <= v_dim m <= limit /\ match d_mesh st with Some m0 => v_dim m0 = v_dim m | None => True end))) /\
  (forall st', set_mesh limit st (Some m) = Done st' -> exists m', d_mesh st' = Some m /\ get_mesh st' = Some m') /\
  (v_vertices m <> [] -> 1 <= v_dim m <= limit ->
   exists st', set_mesh limit (state_of (set_mesh limit st None)) (Some m) = Done st').
Proof. exact C50_replace_partial_holds. Qed.
Print Assumptions C50_replace_partial.

(** Knots [0 1 2 3], degree 1: the domain is the middle span. *)

(** C50, refuted: replacing the mesh by one of another dimension raises; the
    object has lost its spline and reading its mesh raises as well. *)
Theorem C50_replace_refuted :
  exists st, new_ffd tol1 3 (Some square) None None = Some st /\ mesh_ok square /\ mesh_ok cloud /\
  get_mesh st <> None /\
  exists st', set_mesh 3 st (Some cloud) = Raised st' /\ d_spline st' = None /\ d_mesh st' = Some square /\ get_mesh st' = None.
Proof. exact C50_replace_refuted_holds. Qed.
Print Assumptions C50_replace_refuted.

(** C50, refuted: without its spline the object cannot give its mesh back. *)
Theorem C50_get_refuted :
  exists st, new_ffd tol1 3 (Some square) None None = Some st /\
  exists st', set_spline st None = Done st' /\ d_mesh st' = Some square /\ get_mesh st' = None.
Proof. exact C50_get_refuted_holds. Qed.
Print Assumptions C50_get_refuted.

(** C50, refuted: the default spline of the first mesh is kept for a second mesh
    of the same dimension, which is deformed to the box of the first. *)
Theorem C50_stale_refuted :
  exists st st' m', new_ffd tol1 3 (Some square) None None = Some st /\ mesh_ok small /\
  set_mesh 3 st (Some small) = Done st' /\ get_mesh st' = Some m' /\ ~ within (d_padding st') small m'.
Proof. exact C50_stale_refuted_holds. Qed.
Print Assumptions C50_stale_refuted.

(** C50, refuted: a spline whose knots extend beyond its domain is accepted and
    gets vertices outside its domain. *)
Theorem C50_unclamped_refuted :
  sp_wf open_surface /\
  exists st s q, new_ffd tol1 3 (Some square) (Some open_surface) None = Some st /\
  d_spline st = Some s /\ d_q st = Some q /\ Forall (fun u => ~ sp_domain s u) q.
Proof. exact C50_unclamped_refuted_holds. Qed.
Print Assumptions C50_unclamped_refuted.

(** Meshes and splines with the hypotheses above. *)
Example C50_example :
  (0 < tol1)%Qc /\ mesh_ok square /\ mesh_ok cloud /\
  (exists st, new_ffd tol1 3 None None None = Some st /\ reachable tol1 3 st /\ d_spline st = None /\
     exists st', set_mesh 3 st (Some square) = Done st' /\ reachable tol1 3 st' /\
       (exists st2, set_spline st' (Some flat_surface) = Done st2) /\
       (exists st2, set_padding tol1 3 st' 1%Qc = Done st2) /\
       get_mesh st' <> Some square) /\
  sp_wf flat_surface /\ 1 <= length (sp_axes flat_surface) <= 3 /\ Forall whole_range (sp_axes flat_surface).
Proof. exact C50_example_holds. Qed.