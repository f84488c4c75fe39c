(** Model of splinepy/helpme/ffd.py: the class FFD (show and showable are not
    modelled).

    A mesh of gustaf is its vertices and, except for plain vertices, its
    elements; gustaf's bounds() are the least and greatest coordinates, an
    exception without vertices.  A spline is its core.  Numbers are exact.
    Evaluation is BSplineLib code: the values of S_Value.  Meshes and splines of
    other types (TypeError) are not modelled.  tol is settings.TOLERANCE, limit
    the compiled dimension. *)
From Coq Require Import List Arith ZArith Bool QArith Qcanon.
From Verif Require Import Base BaseQc S_Value M_Core M_Knots M_Create.
Import ListNotations.
Local Open Scope list_scope.
Local Open Scope nat_scope.

Record mesh := Mesh { v_dim : nat; v_vertices : list (list Qc); v_elements : option (list (list nat)) }.
Record ffd := Ffd
  { d_mesh : option mesh; d_spline : option spline; d_q : option (list (list Qc)); d_padding : Qc }.

Inductive outcome := Done (st : ffd) | Raised (st : ffd).
Definition state_of (o : outcome) : ffd := match o with Done st | Raised st => st end.

(** gustaf: mesh.bounds() *)
Definition bounds (m : mesh) : option (list Qc * list Qc) :=
  match v_vertices m with
  | [] => None
  | vs => let along f := map (fun d => f (map (fun v => nth d v 0%Qc) vs)) (seq 0 (v_dim m)) in
          Some (along qmin_list, along qmax_list)
  end.

(** 18-19 *)
Definition matches (s : spline) (m : mesh) : bool := length (sp_axes s) =? v_dim m.

(** spline setter, 190-226 *)
Definition set_spline (st : ffd) (s : option spline) : outcome :=
  match s with
  | None => Done (Ffd (d_mesh st) None (d_q st) (d_padding st))
  | Some s =>
      match d_mesh st with
      | Some m => if matches s m then Done (Ffd (d_mesh st) (Some (normalize_knot_vectors s)) (d_q st) (d_padding st))
                  else Raised st
      | None => Done (Ffd (d_mesh st) (Some (normalize_knot_vectors s)) (d_q st) (d_padding st))
      end
  end.

(** 156-171: vertices to the unit cube *)
Definition scaled (padding : Qc) (lo hi : list Qc) (v : list Qc) : list Qc :=
  map (fun x => let '(x, (l, h)) := x in
         ((x - (l - padding)) * (1 / ((h + padding) - (l - padding))))%Qc)
      (combine v (combine lo hi)).

(** mesh setter, 98-173.  Without vertices bounds() raises at 142 or 149. *)
Definition set_mesh (limit : nat) (st : ffd) (m : option mesh) : outcome :=
  match m with
  | None => Done (Ffd None (d_spline st) None (d_padding st))
  | Some m =>
      let st := match d_spline st with                                              (* 124-135 *)
                | Some s => if matches s m then st else Ffd (d_mesh st) None (d_q st) (d_padding st)
                | None => st
                end in
      match bounds m with
      | None => Raised st
      | Some (lo, hi) =>
          match match d_spline st with                                              (* 137-144 *)
                | Some _ => Done st
                | None =>
                    match from_bounds limit (repeat 0%Qc (v_dim m)) (repeat 1%Qc (v_dim m)) lo hi with
                    | None => Raised st
                    | Some s => set_spline st (Some s)
                    end
                end with
          | Raised st => Raised st
          | Done st => Done (Ffd (Some m) (d_spline st) (Some (map (scaled (d_padding st) lo hi) (v_vertices m))) (d_padding st))
          end
      end
  end.

(** padding setter, 244-262 *)
Definition set_padding (tol : Qc) (limit : nat) (st : ffd) (padding : Qc) : outcome :=
  if qltb padding 0 then Raised st
  else if qltb padding tol then Raised st
  else
    let st := Ffd (d_mesh st) (d_spline st) (d_q st) padding in
    match d_q st with Some _ => set_mesh limit st (d_mesh st) | None => Done st end.

(** __init__, 53-71.  An exception in the constructor leaves no object. *)
Definition new_ffd (tol : Qc) (limit : nat) (m : option mesh) (s : option spline) (padding : option Qc) : option ffd :=
  let empty := Ffd None None None 0%Qc in
  match set_padding tol limit empty (match padding with Some p => p | None => tol end) with
  | Raised _ => None
  | Done st =>
      match match m with Some _ => set_mesh limit st m | None => Done st end with
      | Raised _ => None
      | Done st =>
          match match s with Some _ => set_spline st s | None => Done st end with
          | Raised _ => None
          | Done st => Some st
          end
      end
  end.

(** mesh getter, 73-96; [None] = ValueError or AttributeError. *)
Definition get_mesh (st : ffd) : option mesh :=
  match d_mesh st, d_spline st, d_q st with
  | Some m, Some s, Some q =>
      let dim := dim_of (sp_cps s) in
      Some (Mesh dim (map (fun u => map (sp_value s u) (seq 0 dim)) q) (v_elements m))
  | _, _, _ => None
  end.

(** Any sequence of assignments; exceptions are caught by the caller. *)
Inductive op := SetMesh (m : option mesh) | SetSpline (s : option spline) | SetPadding (p : Qc).
Definition step (tol : Qc) (limit : nat) (st : ffd) (o : op) : outcome :=
  match o with
  | SetMesh m => set_mesh limit st m
  | SetSpline s => set_spline st s
  | SetPadding p => set_padding tol limit st p
  end.
Definition run (tol : Qc) (limit : nat) (st : ffd) (ops : list op) : ffd :=
  fold_left (fun st o => state_of (step tol limit st o)) ops st.
