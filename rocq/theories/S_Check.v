(** Specification of the checks of queries and knot vectors. *)
From Coq Require Import List Arith QArith Qcanon.
From Verif Require Import BaseQc S_Grid S_Spline S_Value.
Import ListNotations.
Local Open Scope list_scope.
Local Open Scope nat_scope.

(** Entry [d] of row [i] is above (below) the bounds of the spline. *)
Definition exceeds (s : spline) (rows : list (list Qc)) (d i : nat) : Prop :=
  exists a r u, nth_error (sp_axes s) d = Some a /\ nth_error rows i = Some r /\ nth_error r d = Some u /\ (ax_upper a < u)%Qc.
Definition undercuts (s : spline) (rows : list (list Qc)) (d i : nat) : Prop :=
  exists a r u, nth_error (sp_axes s) d = Some a /\ nth_error rows i = Some r /\ nth_error r d = Some u /\ (u < ax_lower a)%Qc.

(** Knots of an axis equal to an end knot are told from the others by the tolerance. *)
Definition ends_clear (tol : Qc) (a : paxis) : Prop :=
  match a with
  | BezierAxis _ => True
  | KnotAxis _ kv => forall y e, In y kv -> e = hd 0%Qc kv \/ e = last kv 0%Qc -> y = e \/ (tol <= qabs (y - e))%Qc
  end.
(** The end knots appear at least (at most) degree + 1 times. *)
Definition open_ends (a : paxis) : Prop :=
  match a with
  | BezierAxis _ => True
  | KnotAxis p kv => (forall i, i <= p -> kn kv i = kn kv 0) /\
                     (forall i, i <= p -> kn kv (length kv - 1 - i) = kn kv (length kv - 1))
  end.
Definition ends_not_excess (a : paxis) : Prop :=
  match a with
  | BezierAxis _ => True
  | KnotAxis p kv => (kn kv 0 < kn kv (p + 1))%Qc /\ (kn kv (length kv - 2 - p) < kn kv (length kv - 1))%Qc
  end.

(** All axes have knot vectors or none has. *)
Definition one_family (s : spline) : Prop :=
  Forall (fun a => exists p, a = BezierAxis p) (sp_axes s) \/ Forall (fun a => exists p kv, a = KnotAxis p kv) (sp_axes s).

(** The corner of the parametric domain and of the control net given by one choice per axis. *)
Definition corner_at (s : spline) (ups : list bool) : list Qc :=
  map (fun ab => if snd ab : bool then ax_upper (fst ab) else ax_lower (fst ab)) (combine (sp_axes s) ups).
Definition corner_index (s : spline) (ups : list bool) : list nat :=
  map (fun ab => if snd ab : bool then ax_n (fst ab) - 1 else 0) (combine (sp_axes s) ups).
