(** Specification of fitting curves and surfaces to points. *)
From Coq Require Import List Arith ZArith Bool QArith Qcanon.
From Verif Require Import Base BaseQc S_Spline S_Value M_Core S_Solve M_Fit.
Import ListNotations.
Local Open Scope list_scope.
Local Open Scope nat_scope.

(** A knot vector of degree p for n control points, clamped on [0, 1]. *)
Definition unit_knots (p n : nat) (kv : list Qc) : Prop :=
  length kv = n + p + 1 /\ non_decreasing kv /\
  (forall i, i <= p -> nth i kv 0%Qc = 0%Qc) /\
  (forall i, n <= i < n + p + 1 -> nth i kv 0%Qc = 1%Qc).
(** Parameters in [0, 1] from 0 to 1. *)
Definition unit_parameters (u : list Qc) : Prop :=
  non_decreasing u /\ nth 0 u 0%Qc = 0%Qc /\ last u 0%Qc = 1%Qc.
Definition increasing (u : list Qc) : Prop :=
  forall i j, i < j -> j < length u -> (nth i u 0 < nth j u 0)%Qc.

(** Splines over the same basis functions. *)
Definition same_space (s s' : spline) : Prop :=
  sp_axes s' = sp_axes s /\ sp_weights s' = sp_weights s /\ length (sp_cps s') = length (sp_cps s).
(** A curve with all its control points. *)
Definition curve_shape (s : spline) : Prop :=
  exists a, sp_axes s = [a] /\ length (sp_cps s) = ax_n a.
(** The values at the queries determine the control points. *)
Definition determined (s : spline) (us : list Qc) : Prop :=
  forall c : list Qc, length c = length (sp_cps s) ->
    (forall u, In u us -> sp_value (Spl (sp_axes s) (map (fun x => [x]) c) (sp_weights s)) [u] 0 = 0%Qc) ->
    Forall (fun x => x = 0%Qc) c.
(** Sum of the squared distances to the points of dimension dim. *)
Definition squared_error (dim : nat) (s : spline) (us : list Qc) (pts : list (list Qc)) : Qc :=
  qsum (map (fun k => qsum (map (fun d =>
      let e := (sp_value s [nth k us 0%Qc] d - nth d (nth k pts []) 0)%Qc in (e * e)%Qc) (seq 0 dim)))
    (seq 0 (length pts))).

(** What is used of norms and roots: they vanish only at zero. *)
Definition measuring (O : fit_oracles) : Prop :=
  (forall v, (0 <= f_norm O v)%Qc /\ (f_norm O v = 0%Qc -> Forall (fun x => x = 0%Qc) v)) /\
  (forall x, (0 <= x)%Qc -> (0 <= f_sqrt O x)%Qc /\ (f_sqrt O x = 0%Qc -> x = 0%Qc)).
(** An array of m rows and n columns. *)
Definition shaped (m n : nat) (a : list (list Qc)) : Prop := length a = m /\ Forall (fun r => length r = n) a.
(** spsolve solves regular systems; lstsq gives the solution of the normal
    equations when the columns are independent. *)
Definition solving (O : fit_oracles) : Prop :=
  (forall m n a b, 1 <= m -> shaped m m a -> shaped m n b -> ~ singular a ->
     shaped m n (f_spsolve O a b) /\
     forall r d, r < m -> d < n ->
       qsum (map (fun k => entry a r k * entry (f_spsolve O a b) k d)%Qc (seq 0 m)) = entry b r d) /\
  (forall l m n a b, 1 <= m -> shaped l m a -> shaped l n b ->
     (forall c : nat -> Qc, (forall k, k < l -> qsum (map (fun i => entry a k i * c i)%Qc (seq 0 m)) = 0%Qc) ->
        forall i, i < m -> c i = 0%Qc) ->
     shaped m n (f_lstsq O a b) /\
     forall j d, j < m -> d < n ->
       qsum (map (fun k => entry a k j *
         (qsum (map (fun i => entry a k i * entry (f_lstsq O a b) i d) (seq 0 m)) - entry b k d))%Qc (seq 0 l)) = 0%Qc).

(** Consecutive points differ. *)
Definition moving (line : list (list Qc)) : Prop :=
  forall i, S i < length line -> nth i line [] <> nth (S i) line [].
Definition spread (line : list (list Qc)) : Prop :=
  exists i, S i < length line /\ nth i line [] <> nth (S i) line [].

Definition positive_weights (s : spline) : Prop :=
  match sp_weights s with Some ws => length ws = length (sp_cps s) /\ Forall (fun w => (0 < w)%Qc) ws | None => True end.
(** A curve through its end control points; queries from end to end. *)
Definition end_ready (s : spline) (us : list Qc) : Prop :=
  exists a, sp_axes s = [a] /\ length (sp_cps s) = ax_n a /\ ax_wf a /\ ax_clamped a /\ positive_weights s /\
    hd 0%Qc us = ax_lower a /\ last us 0%Qc = ax_upper a.
(** All coordinates of the differences to the points. *)
Definition differences (dim : nat) (s : spline) (us : list Qc) (pts : list (list Qc)) : list Qc :=
  concat (map (fun k => map (fun d => (sp_value s [nth k us 0%Qc] d - nth d (nth k pts []) 0)%Qc) (seq 0 dim))
    (seq 0 (length pts))).
(** The spline takes the points as values at the queries. *)
Definition interpolates (dim : nat) (s : spline) (us : list Qc) (pts : list (list Qc)) : Prop :=
  forall k d, k < length us -> d < dim -> sp_value s [nth k us 0%Qc] d = nth d (nth k pts []) 0%Qc.
Definition interpolates_grid (dim : nat) (s : spline) (us vs : list Qc) (pts : list (list Qc)) : Prop :=
  forall k l d, k < length us -> l < length vs -> d < dim ->
    sp_value s [nth k us 0%Qc; nth l vs 0%Qc] d = nth d (nth (k + length us * l) pts []) 0%Qc.

(** Curves su, sv for the two directions of the surface s: its axes; its
    weights are the products of theirs. *)
Definition directions (s su sv : spline) : Prop :=
  exists a b, sp_axes s = [a; b] /\ sp_axes su = [a] /\ sp_axes sv = [b] /\
    length (sp_cps su) = ax_n a /\ length (sp_cps sv) = ax_n b /\
    match sp_weights s, sp_weights su, sp_weights sv with
    | None, None, None => True
    | Some w, Some wu, Some wv => exists q, q <> 0%Qc /\
        forall i j, i < ax_n a -> j < ax_n b -> (nth (i + ax_n a * j) w 0 * q)%Qc = (nth i wu 0 * nth j wv 0)%Qc
    | _, _, _ => False
    end.

(** The basis functions of a curve and the queries allow to fit; with ends: the
    end points are to be met. *)
Definition fit_ready (s : spline) (us : list Qc) (ends : bool) : Prop :=
  curve_shape s /\ determined s us /\ 1 <= length (sp_cps s) /\
  (ends = true -> length (sp_cps s) = length us \/ (end_ready s us /\ 2 <= length (sp_cps s))).
(** The weights of a surface are products of weights of its first row and first
    column. *)
Definition separable (s : spline) : Prop :=
  exists a b, sp_axes s = [a; b] /\ length (sp_cps s) = ax_n a * ax_n b /\
    match sp_weights s with
    | None => True
    | Some w => nth 0 w 0%Qc <> 0%Qc /\ length w = ax_n a * ax_n b /\
        forall i j, i < ax_n a -> j < ax_n b ->
          (nth (i + ax_n a * j) w 0 * nth 0 w 0)%Qc = (nth i w 0 * nth (ax_n a * j) w 0)%Qc
    end.
