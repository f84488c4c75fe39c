(** Specification of the removal of knots and the reduction of degrees. *)
From Coq Require Import List Arith ZArith QArith Qcanon Permutation.
From Verif Require Import Base BaseQc S_Spline S_Value M_Core S_Core S_Files S_Create.
Import ListNotations.
Local Open Scope list_scope.
Local Open Scope nat_scope.

(** Axis [k] replaced. *)
Definition axis_set (k : nat) (a : paxis) (axes : list paxis) : list paxis := firstn k axes ++ a :: skipn (S k) axes.

(** The values of [s'] differ from those of [s] by at most [e]. *)
Definition within (dim : nat) (e : Qc) (s s' : spline) : Prop :=
  forall us, sp_domain s us -> sp_domain s' us /\ forall d, d < dim -> (qabs (sp_value s' us d - sp_value s us d) <= e)%Qc.
(** Same family. *)
Definition same_family (s s' : spline) : Prop := has_kvs s' = has_kvs s /\ (sp_weights s' = None <-> sp_weights s = None).

(** The library removes one copy of the knot or nothing. *)
Definition removes_knot (rem : spline -> nat -> Qc -> Qc -> spline * Z) : Prop :=
  forall limit dim s k p kv x tol, sound limit dim s -> nth_error (sp_axes s) k = Some (KnotAxis p kv) -> (0 <= tol)%Qc ->
  let (s', m) := rem s k x tol in
  (m = 0%Z /\ s' = s) \/
  (m <> 0%Z /\ sound limit dim s' /\ same_family s s' /\ within dim tol s s' /\
   exists kv', Permutation kv (x :: kv') /\ sp_axes s' = axis_set k (KnotAxis p kv') (sp_axes s)).

(** The library lowers the degree of the axis by one or does nothing. *)
Definition lowers_degree (red : spline -> nat -> Qc -> spline * bool) : Prop :=
  forall limit dim s k a tol, sound limit dim s -> has_kvs s = true -> nth_error (sp_axes s) k = Some a -> (0 <= tol)%Qc ->
  let (s', b) := red s k tol in
  (b = false /\ s' = s) \/
  (b = true /\ sound limit dim s' /\ same_family s s' /\ within dim tol s s' /\
   exists a', ax_degree a = S (ax_degree a') /\ sp_axes s' = axis_set k a' (sp_axes s)).

(** The requests whose flag is set. *)
Fixpoint marked {A} (l : list A) (flags : list bool) : list A :=
  match l, flags with
  | x :: l, b :: flags => if b then x :: marked l flags else marked l flags
  | _, _ => []
  end.

(** Whatever was read correctly is read correctly. *)
Definition reads_on (st : state) (s : spline) (st' : state) (s' : spline) : Prop :=
  (degrees_agree st s -> degrees_agree st' s') /\ (knots_agree st s -> knots_agree st' s') /\
  (cps_agree st s -> cps_agree st' s') /\ (weights_agree st s -> weights_agree st' s') /\
  (index_agrees st s -> index_agrees st' s').

(** [x] is in the range of the knots. *)
Definition in_range (kv : list Qc) (x : Qc) : Prop := (kn kv 0 <= x)%Qc /\ (x <= kn kv (length kv - 1))%Qc.
