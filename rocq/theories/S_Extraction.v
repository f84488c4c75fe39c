(** Specification of Bezier extraction. *)
From Coq Require Import List Arith QArith Qcanon Sorted.
From Verif Require Import BaseQc S_Grid S_Spline S_Value S_Knots.
Import ListNotations.
Local Open Scope list_scope.
Local Open Scope nat_scope.

(** A clamped knot vector of degree p with distinct knots us; the spline is continuous. *)
Definition open_knots (p : nat) (kv us : list Qc) : Prop :=
  1 <= p /\ StronglySorted Qclt us /\
  exists ms, length us = S (S (length ms)) /\ kv = expand_knots us ((p + 1) :: ms ++ [p + 1]) /\
             Forall (fun k => 1 <= k <= p) ms.

(** Point [ts] of the unit cube is mapped to the parameter [us] in element [cs] of the
    grid spanned by the distinct knots. *)
Inductive element_parameter : list (list Qc) -> list nat -> list Qc -> list Qc -> Prop :=
| element_nil : element_parameter [] [] [] []
| element_cons g grid c cs t ts us :
    S c < length g -> (0 <= t)%Qc -> (t <= 1)%Qc -> element_parameter grid cs ts us ->
    element_parameter (g :: grid) (c :: cs) (t :: ts) ((nth c g 0 + t * (nth (S c) g 0 - nth c g 0))%Qc :: us).
Definition element_counts (grid : list (list Qc)) : list nat := map (fun g => length g - 1) grid.

(** Matrix times control points; [dim] columns. *)
Definition combined (M : list (list Qc)) (dim : nat) (cps : list (list Qc)) : list (list Qc) :=
  map (fun row => map (fun d => qsum (map (fun rc => fst rc * nth d (snd rc) 0)%Qc (combine row cps))) (seq 0 dim)) M.

(** Rows with [n] non-negative entries that sum to 1. *)
Definition convex_matrix (rows n : nat) (M : list (list Qc)) : Prop :=
  length M = rows /\ Forall (fun row => length row = n /\ Forall (fun x => 0 <= x)%Qc row /\ qsum row = 1%Qc) M.

Definition bspline_of (axes : list (nat * list Qc)) (cps : list (list Qc)) (ws : option (list Qc)) : spline :=
  Spl (map (fun a => KnotAxis (fst a) (snd a)) axes) cps ws.
Definition bezier_of (axes : list (nat * list Qc)) (cps : list (list Qc)) (ws : option (list Qc)) : spline :=
  Spl (map (fun a => BezierAxis (fst a)) axes) cps ws.

(** Homogeneous coordinates and back. *)
Definition weighted (ws : list Qc) (cps : list (list Qc)) : list (list Qc) :=
  map (fun wp => map (Qcmult (fst wp)) (snd wp)) (combine ws cps).
Definition projected (ws : list Qc) (cps : list (list Qc)) : list (list Qc) :=
  map (fun wp => map (fun x => x / fst wp)%Qc (snd wp)) (combine ws cps).
Definition weights_of (M : list (list Qc)) (ws : list Qc) : list Qc :=
  map (hd 0%Qc) (combined M 1 (map (fun w => [w]) ws)).
