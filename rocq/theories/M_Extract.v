(** Model of include/splinepy/splines/helpers/extract.hpp (45-172) and
    src/py/py_spline_extensions.cpp 164-190: boundary extraction.
    The spline record is the data the kernels hold; the evaluation kernels
    themselves (third party) are represented by the specification S_Value. *)
From Coq Require Import List Arith ZArith QArith Qcanon.
From Verif Require Import Base BaseRadix BaseQc M_Grid S_Value.
Import ListNotations.
Local Open Scope nat_scope.

(** Copying rows by id; [None]: an id outside the control mesh. *)
Definition pick {A} (l : list A) (ids : list nat) : option (list A) :=
  all_some (map (nth_error l) ids).

Inductive extracted :=
| EmptySpline             (* warning, default constructed spline *)
| Extracted (s : spline)
| OutOfRange.             (* row access outside the control mesh *)

(** extract.hpp 45-144.  Rational types copy weighted control points and
    weights row by row (86-90 and 122-126); copying (w*P, w) and copying (P, w)
    are the same, so rows are kept as P and w.  For Bezier types the axes are
    the remaining degrees (94-109), otherwise the parent's knot vectors
    without the normal axis (72-73). *)
Definition extract_slice_from_ids (s : spline) (ids : list nat) (axis : nat) : extracted :=
  if length (sp_axes s) <=? 1 then EmptySpline
  else
    let axes := remove_at axis (sp_axes s) in
    match pick (sp_cps s) ids, sp_weights s with
    | None, _ => OutOfRange
    | Some cps, None => Extracted (Spl axes cps None)
    | Some cps, Some w =>
        match pick w ids with
        | None => OutOfRange
        | Some w => Extracted (Spl axes cps (Some w))
        end
    end.

(** extract.hpp 146-172.  GetControlMeshResolutions (properties.hpp 69-89) is
    [sp_res]. *)
Definition extract_boundary (s : spline) (bid : nat) : extracted :=
  if length (sp_axes s) <=? 1 then EmptySpline
  else
    let axis := bid / 2 in
    let plane := if bid mod 2 =? 0 then 0 else nth axis (sp_res s) 0 - 1 in
    extract_slice_from_ids s (ids_on_hyper_plane (sp_res s) axis plane) axis.

(** py_spline_extensions.cpp 164-190; [None] = exception for an id outside
    0 .. 2*para_dim-1. *)
Definition extract_boundaries (s : spline) (bids : list Z) : option (list extracted) :=
  match bids with
  | [] => Some (map (extract_boundary s) (seq 0 (2 * length (sp_axes s))))
  | _ => all_some (map (fun b =>
           if (b <? 0)%Z || (Z.of_nat (2 * length (sp_axes s)) - 1 <? b)%Z then None
           else Some (extract_boundary s (Z.to_nat b))) bids)
  end.
