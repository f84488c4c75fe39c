(** Specification vocabulary for the linear solver and for clipping. *)
From Coq Require Import List Arith ZArith QArith Qcanon.
From Verif Require Import Base BaseQc M_Solve.
Import ListNotations.
Local Open Scope nat_scope.

(** Entry and row product of a matrix given by its rows. *)
Definition entry (a : list (list Qc)) (r k : nat) : Qc := nth k (nth r a []) 0%Qc.
Definition row_times (a : list (list Qc)) (r : nat) (x : list Qc) : Qc :=
  qsum (map (fun k => entry a r k * nth k x 0)%Qc (seq 0 (length a))).

(** [x] solves [a x = b]. *)
Definition solves (a : list (list Qc)) (b x : list Qc) : Prop :=
  length x = length a /\ forall r, r < length a -> row_times a r x = nth r b 0%Qc.

(** [a] maps a vector other than zero to zero. *)
Definition singular (a : list (list Qc)) : Prop :=
  exists v, solves a [] v /\ exists k, k < length a /\ nth k v 0%Qc <> 0%Qc.

(** The order of doubles, NaN being unordered. *)
Definition dle (x y : dbl) : Prop :=
  match x, y with
  | NaN, _ | _, NaN => False
  | NInf, _ | _, PInf => True
  | Num a, Num b => (a <= b)%Qc
  | _, _ => False
  end.
Definition below (x y : dbl) : Prop := dle x y /\ ~ dle y x.
