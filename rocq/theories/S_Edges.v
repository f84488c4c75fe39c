(** Specification of the lines drawn for a spline: one line along each axis through every choice of
    knots of the other axes. *)
From Coq Require Import List Arith QArith Qcanon.
From Verif Require Import BaseQc S_Spline S_Value.
Import ListNotations.
Local Open Scope list_scope.
Local Open Scope nat_scope.

(** Lines cross axis [a] at [x]: at its knots in the domain, or at its bounds only. *)
Definition crossing (all_knots : bool) (a : paxis) (x : Qc) : Prop :=
  if all_knots then
    match a with
    | BezierAxis _ => x = 0%Qc \/ x = 1%Qc
    | KnotAxis p kv => exists i, p <= i <= ax_n a /\ x = kn kv i
    end
  else x = ax_lower a \/ x = ax_upper a.

(** A line along axis [i] with the other parameters [o], drawn with [nth i res] points. *)
Definition is_line (all_knots : bool) (s : spline) (i : nat) (o : list Qc) : Prop :=
  i < length (sp_axes s) /\ Forall2 (crossing all_knots) (remove_at i (sp_axes s)) o.

(** Its point number [j]. *)
Definition line_point (s : spline) (res : list nat) (i : nat) (o : list Qc) (j : nat) : list Qc :=
  let lo := nth i (map ax_lower (sp_axes s)) 0%Qc in
  let up := nth i (map ax_upper (sp_axes s)) 0%Qc in
  insert_at i (lo + (up - lo) / inj (nth i res 0%nat - 1) * inj j)%Qc o.
