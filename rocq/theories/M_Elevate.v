(** Model of elevate_degrees: grouping of the requested dimensions and the loop
    over the groups. *)
From Coq Require Import List Arith Bool Lia ZArith QArith Qcanon.
From Verif Require Import Base BaseQc S_Value M_Knots M_Core.
Import ListNotations.
Local Open Scope nat_scope.

(** Integers compared by the sort. *)
Definition zq (z : Z) : Qc := Q2Qc (inject_Z z).

Section Elevate.
(** SplinepyElevateDegree (bezier.inl 232-239, bspline.hpp 436-441): library call. *)
Context (elev : spline -> nat -> nat -> spline).

Inductive elevation := Elevated (s : spline) | Stopped (s : spline).

(** py_spline.cpp 796-805: one library call for each group; raises at the first
    invalid dimension. *)
Fixpoint elevate_groups (dims : list Z) (uniq ms : list nat) (s : spline) : elevation :=
  match uniq, ms with
  | u :: uniq, m :: ms =>
      let d := nth u dims 0%Z in
      if (negb (d <? Z.of_nat (length (sp_axes s))) || (d <? 0))%Z then Stopped s
      else elevate_groups dims uniq ms (elev s (Z.to_nat d) m)
  | _, _ => Elevated s
  end.

(** py_spline.cpp 784-806 with arrays.hpp 587-652; [None] = writes outside an array. *)
Definition elevate_core (s : spline) (dims : list Z) : option elevation :=
  let arg := stable_argsort (map zq dims) in
  let uniq := std_unique (fun a b => Z.eqb (nth a dims 0%Z) (nth b dims 0%Z)) arg in
  match multiplicities uniq arg with
  | None => None
  | Some ms => Some (elevate_groups dims uniq ms s)
  end.

(** spline.py 1486-1505: [_data] is cleared unless the call raised; the changed
    core owns its control points. *)
Definition elevate_degrees (st : state) (dims : list Z) : option outcome :=
  match s_core st with
  | None => Some (Raised st)
  | Some s =>
      match elevate_core s dims with
      | None => None
      | Some (Stopped s') =>
          Some (Raised (St (Some s') (s_deg st) (s_kvs st) (s_cps st) (s_ws st) (s_mi st)
                           (s_view st) (s_fresh st)))
      | Some (Elevated s') =>
          Some (Done (St (Some s') None None None None None None (s_fresh st)))
      end
  end.
End Elevate.
