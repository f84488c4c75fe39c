(** Specification vocabulary for reparametrized splines. *)
From Coq Require Import List Arith ZArith QArith Qcanon.
From Verif Require Import BaseQc S_Spline S_Value.
Import ListNotations.
Local Open Scope nat_scope.

(** Python sequence position: z names entry k of n entries (negative values
    count from the end). *)
Definition names_axis (n : nat) (z : Z) (k : nat) : Prop :=
  k < n /\ (z = Z.of_nat k \/ z = (Z.of_nat k - Z.of_nat n)%Z).

(** If u is an interior knot, its multiplicity is at most the degree. *)
Definition ax_continuous_at (a : paxis) (u : Qc) : Prop :=
  match a with
  | BezierAxis _ => True
  | KnotAxis p kv =>
      forall i, kn kv i = u -> (ax_lower a < u)%Qc -> (u < ax_upper a)%Qc -> (u < kn kv (i + p))%Qc
  end.

(** Mirror the parameters of the axes in [ks] at the centre of their bounds. *)
Definition flip_params (ks : list nat) (axes : list paxis) (us : list Qc) : list Qc :=
  map (fun k => let a := nth k axes (BezierAxis 0) in let u := nth k us 0%Qc in
                if existsb (Nat.eqb k) ks then (ax_lower a + ax_upper a - u)%Qc else u)
      (seq 0 (length us)).
