(** Specification of splines of the four supported families (Bezier, rational
    Bezier, B-spline, NURBS) and their values.  Mathematical meaning only. *)
From Coq Require Import List Arith QArith Qcanon.
From Verif Require Import BaseQc S_Grid S_Spline.
Import ListNotations.
Local Open Scope Qc_scope.

(** One parametric axis: Bernstein polynomials of degree p on [0,1], or
    B-splines of degree p over a knot vector. *)
Inductive paxis := BezierAxis (p : nat) | KnotAxis (p : nat) (kv : list Qc).

Definition ax_degree (a : paxis) : nat :=
  match a with BezierAxis p => p | KnotAxis p _ => p end.
(** Number of basis functions. *)
Definition ax_n (a : paxis) : nat :=
  match a with BezierAxis p => p + 1 | KnotAxis p kv => length kv - p - 1 end.
(** Basis functions. *)
Definition ax_fun (a : paxis) (u : Qc) (i : nat) : Qc :=
  match a with
  | BezierAxis p => bernstein p i u
  | KnotAxis p kv => bspline_basis kv p (ax_n a) u i
  end.
(** Parametric bounds. *)
Definition ax_lower (a : paxis) : Qc :=
  match a with BezierAxis _ => 0 | KnotAxis p kv => kn kv p end.
Definition ax_upper (a : paxis) : Qc :=
  match a with BezierAxis _ => 1 | KnotAxis p kv => kn kv (ax_n a) end.
Definition ax_domain (a : paxis) (u : Qc) : Prop := ax_lower a <= u /\ u <= ax_upper a.
Definition ax_wf (a : paxis) : Prop :=
  match a with BezierAxis _ => True | KnotAxis p kv => knot_vector p (ax_n a) kv end.

(** A spline: control points first axis fastest; weights for rational types. *)
Record spline := Spl
  { sp_axes : list paxis; sp_cps : list (list Qc); sp_weights : option (list Qc) }.

Definition sp_res (s : spline) : list nat := map ax_n (sp_axes s).

(** Basis functions of all axes at a parameter. *)
Definition sp_basis (axes : list paxis) (us : list Qc) : list (nat * (nat -> Qc)) :=
  map (fun au => (ax_n (fst au), ax_fun (fst au) (snd au))) (combine axes us).

(** Coordinate [d] of the value at [us]. *)
Definition sp_value (s : spline) (us : list Qc) (d : nat) : Qc :=
  let B := sp_basis (sp_axes s) us in
  let P := net (sp_res s) (sp_cps s) d in
  match sp_weights s with
  | None => tensor B P
  | Some ws =>
      let w := fun ix => nth (flat_id (sp_res s) ix) ws 0 in
      tensor B (fun ix => w ix * P ix) / tensor B w
  end.

Definition sp_wf (s : spline) : Prop :=
  Forall ax_wf (sp_axes s) /\
  length (sp_cps s) = fold_right Nat.mul 1%nat (sp_res s) /\
  match sp_weights s with
  | None => True
  | Some ws => length ws = fold_right Nat.mul 1%nat (sp_res s)
  end.

Definition sp_domain (s : spline) (us : list Qc) : Prop := Forall2 ax_domain (sp_axes s) us.

(** Insert / remove a list entry. *)
Definition insert_at {A} (k : nat) (x : A) (l : list A) : list A := firstn k l ++ x :: skipn k l.
Definition remove_at {A} (k : nat) (l : list A) : list A := firstn k l ++ skipn (S k) l.

(** The axis interpolates its first / last control point. *)
Definition ax_clamped (a : paxis) : Prop :=
  match a with
  | BezierAxis _ => True
  | KnotAxis p kv =>
      kn kv 0 = kn kv p /\ kn kv p < kn kv (p + 1) /\
      kn kv (ax_n a - 1) < kn kv (ax_n a) /\ kn kv (ax_n a) = kn kv (ax_n a + p)
  end.
