(** Specification of extracted parts of splines. *)
From Coq Require Import List Arith ZArith QArith Qcanon.
From Verif Require Import Base BaseQc S_Spline S_Value M_Core S_Core S_Files S_Create.
Import ListNotations.
Local Open Scope list_scope.
Local Open Scope nat_scope.

Definition times (x : Qc) (kv : list Qc) : nat := count_occ Qc_eq_dec kv x.
Definition clear_of (tol : Qc) (kv : list Qc) (x : Qc) : Prop := forall y, In y kv -> y = x \/ (tol <= qabs (y - x))%Qc.

(** Knot insertion: nothing happens to a knot that is there p + 1 times; otherwise there is one
    more, at its place, and the values of the spline stay. *)
Definition raises_multiplicity (tol : Qc) (ins : spline -> nat -> Qc -> spline) : Prop :=
  forall limit dim s k p kv x, sound limit dim s -> nth_error (sp_axes s) k = Some (KnotAxis p kv) -> 1 <= p ->
  ax_clamped (KnotAxis p kv) -> has_kvs s = true -> clear_of tol kv x ->
  (times x kv = p + 1 -> ins s k x = s) /\
  (times x kv <= p -> (ax_lower (KnotAxis p kv) < x)%Qc -> (x < ax_upper (KnotAxis p kv))%Qc ->
   exists l1 l2, kv = l1 ++ l2 /\ Forall (fun y => y <= x)%Qc l1 /\ Forall (fun y => x <= y)%Qc l2 /\
     sp_axes (ins s k x) = firstn k (sp_axes s) ++ KnotAxis p (l1 ++ x :: l2) :: skipn (S k) (sp_axes s) /\
     sound limit dim (ins s k x) /\ (sp_weights (ins s k x) = None <-> sp_weights s = None) /\
     forall us d, sp_domain s us -> d < dim -> sp_value (ins s k x) us d = sp_value s us d).

(** Knots where an axis may be less smooth. *)
Definition breaks (a : paxis) : list Qc := match a with BezierAxis _ => [0%Qc; 1%Qc] | KnotAxis _ kv => kv end.
(** The spline can be cut at [x]: its knots are well separated from [x] or equal to it. *)
Definition cuttable (tol : Qc) (a : paxis) (x : Qc) : Prop :=
  1 <= ax_degree a /\ ax_clamped a /\ ax_domain a x /\ clear_of tol (breaks a) x /\ times x (breaks a) <= ax_degree a + 1.
(** One-sided values at [x] agree. *)
Definition continuous_at (a : paxis) (x : Qc) : Prop := x = ax_upper a \/ times x (breaks a) <= ax_degree a.
