(** Property theorems C38, C39: mfem files. *)
From Coq Require Import List Arith ZArith Bool QArith Qcanon Lia Permutation.
From Verif Require Import Base BaseQc S_Grid S_Spline S_Value M_Core S_Core P_Core W_Core M_Files S_Files P_Files W_Files S_Irit M_Mfem S_Mfem P_Mfem W_Mfem.
Import ListNotations.
Local Open Scope list_scope.
Local Open Scope nat_scope.

(** * C38 *)
(** The degree of freedom map lists every control point once; the second list undoes it. *)
Theorem C38_dof_mapping : forall res, mfem_shape res ->
  exists ids inverse, dof_mapping res = Some (ids, inverse) /\ renumbering (fold_right Nat.mul 1 res) ids inverse.
Proof. exact C38_dof_mapping_holds. Qed.
Print Assumptions C38_dof_mapping.

(** A plate of 3 x 4 points. *)
Example C38_dof_example : mfem_shape [3; 4] /\
  option_map fst (dof_mapping [3; 4]) = Some [0; 2; 11; 9; 1; 10; 3; 6; 5; 8; 4; 7].
Proof. exact C38_dof_example_holds. Qed.

(** Loading an exported spline gives the spline as NURBS: all control points and weights
    at their places. *)
Theorem C38_load : forall limit s, storable limit s -> weights_ok s -> mfem_shape (sp_res s) ->
  exists f t, export_mfem s = Some f /\ load_mfem limit f = Some (Object (Some CNurbs) t) /\ nurbs_of s t.
Proof. exact C38_load_holds. Qed.
Print Assumptions C38_load.

(** A NURBS is its own NURBS form; other splines have the values of theirs. *)
Theorem C38_nurbs_form : forall s t, nurbs_of s t ->
  (sp_weights s <> None -> Forall (fun a => exists p kv, a = KnotAxis p kv) (sp_axes s) -> t = s) /\
  (sp_wf s -> forall us, sp_domain s us -> forall d, sp_value t us d = sp_value s us d).
Proof. exact C38_nurbs_form_holds. Qed.
Print Assumptions C38_nurbs_form.

(** A square with one weight that differs. *)
Example C38_load_example : storable 3 (square ones_but_last) /\ weights_ok (square ones_but_last) /\
  mfem_shape (sp_res (square ones_but_last)) /\
  (match export_mfem (square ones_but_last) with Some f => length f | None => 0 end) = 37.
Proof. exact C38_load_example_holds. Qed.

(** A solution gets the knots of the reference and the solution's values at their places.
    The weights of the reference are moved by the second list, although they are in order
    already; they are right only if that does not change them. *)
Theorem C38_solution_partial : forall limit reference w ids inverse values dim f,
  storable limit reference -> sp_weights reference = Some w -> weights_ok reference ->
  Forall (fun a => exists p kv, a = KnotAxis p kv) (sp_axes reference) -> mfem_shape (sp_res reference) ->
  dof_mapping (sp_res reference) = Some (ids, inverse) ->
  length values = length (sp_cps reference) -> 0 < dim -> Forall (fun r => length r = dim) values ->
  solution_file ids values f ->
  exists w', read_solution limit f reference = Some (Spl (sp_axes reference) values (Some w')) /\
    listed inverse w w' /\ (forall x, Forall (eq x) w -> w' = w).
Proof. exact C38_solution_partial_holds. Qed.
Print Assumptions C38_solution_partial.

(** The file of a square with a displacement as solution. *)
Example C38_solution_example : dof_mapping [2; 2] = Some ([0; 1; 3; 2], [0; 1; 3; 2]) /\
  solution_file [0; 1; 3; 2] moved_values moved.
Proof. exact C38_solution_example_holds. Qed.

(** Weights of the reference end at other control points: reading back the spline's own
    file with the spline as reference gives another spline. *)
Theorem C38_solution_refuted : exists s f t, storable 3 s /\ weights_ok s /\ mfem_shape (sp_res s) /\
  export_mfem s = Some f /\ load_mfem 3 f = Some (Object (Some CNurbs) s) /\
  read_solution 3 f s = Some t /\ sp_cps t = sp_cps s /\ sp_axes t = sp_axes s /\ sp_weights t <> sp_weights s.
Proof. exact C38_solution_refuted_holds. Qed.
Print Assumptions C38_solution_refuted.

(** * C39 *)
(** Boundary lines of a cartesian mesh: one for each face with a negative entry, in order,
    with the positive id; its vertices are the numbers of the corners of this patch with the
    coordinate of the face fixed, listed around the face.  [inverse]: number of every corner
    of every patch, from close_rows. *)
Theorem C39_boundary : forall (A : Type) (point : nat -> nat -> A) d cmrs inverse table, d = 2 \/ d = 3 ->
  Forall (fun c => length c = d /\ Forall (fun n => 1 <= n) c) cmrs ->
  length table = length cmrs -> Forall (fun row => length row = 2 * d) table ->
  Forall2 (fun n line =>
    let '(e, f, z) := n in
    fst line = (- z)%Z /\
    exists bits js, Permutation bits (face_bits d f) /\ around bits /\
      Forall2 (fun b j => nth_error (corner_vertices point cmrs) j = Some (point e (at_corner (nth e cmrs []) b))) bits js /\
      snd line = map (fun j => nth j inverse 0) js)
    (negatives 0 table) (boundary_lines d inverse table).
Proof. exact C39_boundary_holds. Qed.
Print Assumptions C39_boundary.

(** Two quadrilaterals side by side. *)
Example C39_example :
  boundary_lines 2 [0; 1; 2; 3; 1; 4; 5; 2] [[-1; 4; -2; -2]; [1; -3; -2; -4]]%Z =
    [(1%Z, [0; 3]); (2%Z, [0; 1]); (2%Z, [3; 2]); (3%Z, [4; 5]); (2%Z, [1; 4]); (4%Z, [2; 5])] /\
  corner_vertices (fun e i => (e, i)) [[3; 2]; [2; 2]] =
    [(0, 0); (0, 2); (0, 5); (0, 3); (1, 0); (1, 1); (1, 3); (1, 2)].
Proof. exact C39_example_holds. Qed.