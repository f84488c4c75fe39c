(** Vocabulary of the model of splinepy/microstructure/tiles: arrays of control
    points and tile_base.py.  A tile is a list of Bezier splines. *)
From Coq Require Import List Arith ZArith QArith Qcanon.
From Verif Require Import Base BaseQc S_Grid S_Spline S_Value.
Import ListNotations.
Local Open Scope list_scope.
Local Open Scope nat_scope.

Notation tile := (list spline).

(** Bezier(degrees, control_points), splinepy/bezier.py 22-60. *)
Definition bez (degrees : list nat) (cps : list (list Qc)) : spline :=
  Spl (map BezierAxis degrees) cps None.

(** Sum of two rows; of a row and every row of an array; of a number and every
    entry (numpy broadcasting). *)
Fixpoint row_add (u v : list Qc) : list Qc :=
  match u, v with
  | x :: u, y :: v => (x + y)%Qc :: row_add u v
  | _, _ => []
  end.
Definition shift (v : list Qc) (m : list (list Qc)) : list (list Qc) := map (fun p => row_add p v) m.
Definition shift_all (x : Qc) (m : list (list Qc)) : list (list Qc) := map (map (fun y => y + x)%Qc) m.
(** np.maximum(m, x), np.minimum(m, x), np.zeros((r, c)). *)
Definition qmax (x y : Qc) : Qc := if qleb x y then y else x.
Definition qmin (x y : Qc) : Qc := if qleb x y then x else y.
Definition at_least (x : Qc) (m : list (list Qc)) : list (list Qc) := map (map (fun y => qmax y x)) m.
Definition at_most (x : Qc) (m : list (list Qc)) : list (list Qc) := map (map (fun y => qmin y x)) m.
Definition zeros (r c : nat) : list (list Qc) := repeat (repeat 0%Qc c) r.

(** Outcome of create_tile: splines and derivatives, or an exception. *)
Inductive exc := ValueError | TypeError | NotImplementedError | UnboundLocalError.
Inductive made := Raised (e : exc) | Made (splines : tile) (derivatives : option (list tile)).

(** Two dimensional arrays: one row per evaluation point; three dimensional
    ones: per evaluation point and parameter the list over the design variables.
    Arrays are rectangular; other numbers of dimensions (TypeError in
    check_params) are not represented. *)
Definition array2 := list (list Qc).
Definition array3 := list (list (list Qc)).

(** tile_base.py 79-106. *)
Definition check_params (n_points n_info : nat) (params : array2) : bool :=
  (length params =? n_points) && forallb (fun r => length r =? n_info) params.
(** tile_base.py 108-138: [None] = TypeError, otherwise whether derivatives are
    wanted. *)
Definition check_param_derivatives (n_points n_info : nat) (d : option array3) : option bool :=
  match d with
  | None => Some false
  | Some d => if (length d =? n_points) && forallb (fun r => length r =? n_info) d then Some true else None
  end.

(** parameter_sensitivities.shape[2], and the slice [:, :, i]. *)
Definition n_derivatives (d : array3) : nat := length (hd [] (hd [] d)).
Definition slice (d : array3) (i : nat) : array2 := map (map (fun l => nth i l 0%Qc)) d.
(** parameters[i, j]. *)
Definition at2 (p : array2) (i j : nat) : Qc := nth j (nth i p []) 0%Qc.
(** np.all(lo < p) and np.all(p < hi). *)
Definition all_between (lo hi : Qc) (p : array2) : bool :=
  forallb (fun x => qltb lo x) (concat p) && forallb (fun x => qltb x hi) (concat p).
(** np.ones((n, m)) * x *)
Definition full (n m : nat) (x : Qc) : array2 := repeat (repeat x m) n.

(** The loop over i_derivative shared by the tiles: first the splines, then one
    list per design variable. *)
Definition loop (value deriv : array2 -> tile) (params : array2) (sens : option array3) : made :=
  Made (value params) (option_map (fun d => map (fun i => deriv (slice d i)) (seq 0 (n_derivatives d))) sens).

(** Functions of numpy. *)
Record libm := Libm { pi : Qc; sin : Qc -> Qc; cos : Qc -> Qc; sqrt : Qc -> Qc }.
