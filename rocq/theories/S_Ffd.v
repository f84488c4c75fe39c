(** Specification of free form deformation. *)
From Coq Require Import List Arith ZArith Bool QArith Qcanon.
From Verif Require Import Base BaseQc S_Spline S_Value M_Core M_Ffd.
Import ListNotations.
Local Open Scope list_scope.
Local Open Scope nat_scope.

(** A mesh: all vertices have its dimension. *)
Definition mesh_ok (m : mesh) : Prop := Forall (fun v => length v = v_dim m) (v_vertices m).
(** Splines have at least one and at most [limit] (compiled) parameters. *)
Definition op_ok (limit : nat) (o : op) : Prop :=
  match o with
  | SetMesh (Some m) => mesh_ok m
  | SetSpline (Some s) => sp_wf s /\ 1 <= length (sp_axes s) <= limit
  | _ => True
  end.
(** States of an object: created, then any sequence of assignments. *)
Definition reachable (tol : Qc) (limit : nat) (st : ffd) : Prop :=
  exists m s padding st0 ops, op_ok limit (SetMesh m) /\ op_ok limit (SetSpline s) /\ new_ffd tol limit m s padding = Some st0 /\
    Forall (op_ok limit) ops /\ st = run tol limit st0 ops.

(** [lo] and [hi] are the least and greatest coordinates of the vertices. *)
Definition box_of (vs : list (list Qc)) (lo hi : nat -> Qc) (dim : nat) : Prop :=
  forall d, d < dim ->
    (exists v, In v vs /\ nth d v 0%Qc = lo d) /\ (exists v, In v vs /\ nth d v 0%Qc = hi d) /\
    forall v, In v vs -> (lo d <= nth d v 0)%Qc /\ (nth d v 0 <= hi d)%Qc.

(** [q] is the mesh scaled into the unit cube: the padded box of the mesh
    corresponds to the cube. *)
Definition fits_cube (padding : Qc) (m : mesh) (q : list (list Qc)) : Prop :=
  length q = length (v_vertices m) /\
  exists lo hi, box_of (v_vertices m) lo hi (v_dim m) /\
  forall i, i < length q -> length (nth i q []) = v_dim m /\
    forall d, d < v_dim m ->
      let x := nth d (nth i q []) 0%Qc in
      (0 < x)%Qc /\ (x < 1)%Qc /\
      nth d (nth i (v_vertices m) []) 0%Qc = (lo d - padding + x * (hi d - lo d + inj 2 * padding))%Qc.

(** The domain of the axis is the whole range of its knots. *)
Definition whole_range (a : paxis) : Prop :=
  match a with
  | BezierAxis _ => True
  | KnotAxis p kv => kn kv p = kn kv 0 /\ kn kv (ax_n a) = kn kv (length kv - 1)
  end.
(** Two meshes differ by at most [e] in each coordinate. *)
Definition within (e : Qc) (m m' : mesh) : Prop :=
  v_dim m' = v_dim m /\ v_elements m' = v_elements m /\ length (v_vertices m') = length (v_vertices m) /\
  forall i d, i < length (v_vertices m) -> d < v_dim m ->
    (qabs (nth d (nth i (v_vertices m') []) 0 - nth d (nth i (v_vertices m) []) 0) <= e)%Qc.
