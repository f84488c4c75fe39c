(** Specification of the oracle for cosine and sine at the angle of a void, and of
    sensitivities that do not turn it about the y axis. *)
From Coq Require Import List Arith QArith Qcanon.
From Verif Require Import BaseQc S_Deriv M_Tiles M_TileMake S_Tiles.
Local Open Scope nat_scope.

(** At the angle [t] cosine and sine have the slopes of a rotation. *)
Definition trig_slopes (m : libm) (t : Qc) : Prop :=
  is_deriv (cos m) t (- sin m t)%Qc /\ is_deriv (sin m) t (cos m t).
(** No design variable changes the fourth parameter, the angle about the y axis. *)
Definition no_turn_y (s : list (list (list Qc))) : Prop :=
  forall i, i < length (hd nil (hd nil s)) -> nth 3 (nth 0 (direction s i) nil) 0%Qc = 0%Qc.
