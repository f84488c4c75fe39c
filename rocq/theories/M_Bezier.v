(** Model of conversions between the spline families and of Bezier splitting. *)
From Coq Require Import List Arith ZArith QArith Qcanon.
From Verif Require Import Base BaseQc BaseSort S_Spline S_Value.
Import ListNotations.
Local Open Scope nat_scope.

(** src/py/py_spline_extensions.cpp 225-238: 0^(d+1) 1^(d+1). *)
Definition bezier_knots (p : nat) : list Qc := repeat 0%Qc (p + 1) ++ repeat 1%Qc (p + 1).
Definition with_knots (a : paxis) : paxis :=
  match a with BezierAxis p => KnotAxis p (bezier_knots p) | KnotAxis p kv => KnotAxis p kv end.
(** HasKnotVectors: all axes are of the same kind. *)
Definition has_knot_vectors (s : spline) : bool :=
  match sp_axes s with BezierAxis _ :: _ => false | _ => true end.
(** 209-244; all other properties are copied through the property dict. *)
Definition same_spline_with_knot_vectors (s : spline) : spline :=
  if has_knot_vectors s then s
  else Spl (map with_knots (sp_axes s)) (sp_cps s) (sp_weights s).

(** splinepy/bezier.py 367-371 (rationalbezier), bspline.py 480-492 (nurbs): unit weights. *)
Definition unit_weights (s : spline) : spline :=
  Spl (sp_axes s) (sp_cps s) (Some (repeat 1%Qc (length (sp_cps s)))).
(** bezier.py 373-385 *)
Definition bezier_to_bspline (s : spline) : spline := same_spline_with_knot_vectors s.
Definition bezier_to_nurbs (s : spline) : spline := same_spline_with_knot_vectors (unit_weights s).

(** Splitting.  [split1 s x] is SplinepySplit(p_dim, x) (bezier.inl 577-594):
    bezman's SplitAtPosition, not in /repo, hence an argument. *)
Section Split.
Context {S : Type} (split1 : S -> Qc -> S * S).
(** py_spline_extensions.cpp 142-149: [prev] is locs[i-1], [rest] is
    tmp_splitted[1].  [None]: division by zero. *)
Fixpoint split_loop (prev : Qc) (rest : S) (locs : list Qc) : option (list S) :=
  match locs with
  | [] => Some [rest]
  | x :: locs =>
      if qeqb prev 1 then None
      else
        let (l, r) := split1 rest ((x - prev) / (1 - prev))%Qc in
        match split_loop x r locs with
        | None => None
        | Some ps => Some (l :: ps)
        end
  end.
Inductive split_result := SplitRaises | SplitUndefined | SplitPieces (ps : list S).
(** 125-151 after bezier.py 248-249.  max() of an empty sequence raises. *)
Definition split (s : S) (locations : list Qc) : split_result :=
  match locations with
  | [] => SplitRaises
  | _ =>
      if existsb (fun x => qltb 1 x || qltb x 0)%bool locations then SplitRaises
      else
        match qsort locations with
        | [] => SplitUndefined
        | x :: locs =>
            let (l, r) := split1 s x in
            match split_loop x r locs with
            | None => SplitUndefined
            | Some ps => SplitPieces (l :: ps)
            end
        end
  end.
End Split.
Arguments SplitRaises {S}. Arguments SplitUndefined {S}. Arguments SplitPieces {S}.
