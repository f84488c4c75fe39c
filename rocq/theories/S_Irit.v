(** Specification of the splines an irit file can hold. *)
From Coq Require Import List Arith ZArith QArith Qcanon.
From Verif Require Import Base BaseQc S_Value M_Core S_Core M_Files S_Files.
Import ListNotations.
Local Open Scope nat_scope.

(** No weight is zero. *)
Definition weights_ok (s : spline) : Prop :=
  match sp_weights s with Some w => Forall (fun x => x <> 0%Qc) w | None => True end.
(** Points of at most nine coordinates. *)
Definition one_digit (s : spline) : Prop := Forall (fun p => length p < 10) (sp_cps s).
