(** Specification of primitives. *)
From Coq Require Import List Arith ZArith QArith Qcanon.
From Verif Require Import Base BaseQc S_Value M_Create S_Create.
Import ListNotations.
Local Open Scope list_scope.
Local Open Scope nat_scope.

(** What is used of computed sines and cosines: Pythagoras and sin (pi/2 - a) = cos a, both up
    to [eps]. *)
Definition nearly_circular (eps : Qc) (O : oracles) (a : Qc) : Prop :=
  (qabs (o_cos O a * o_cos O a + o_sin O a * o_sin O a - 1) <= eps)%Qc /\
  (qabs (o_sin O (o_pi O / inj 2 - a) - o_cos O a) <= eps)%Qc /\ (0 < o_sin O (o_pi O / inj 2 - a)%Qc)%Qc.
Definition small (eps : Qc) : Prop := (0 <= eps)%Qc /\ (eps <= qc 1 24)%Qc.

(** Bounds of the squared radius after at most n segments; 1 if [eps] is 0. *)
Definition low (eps : Qc) (n : nat) : Qc := ((1 - eps) ^ (2 * n) * (1 - inj 24 * eps))%Qc.
Definition high (eps : Qc) (n : nat) : Qc := ((1 + eps) ^ (2 * n) * (1 + inj 24 * eps))%Qc.
Definition nearly_unit (eps : Qc) (n : nat) (al be : Qc) : Prop :=
  (low eps n <= al * al + be * be)%Qc /\ (al * al + be * be <= high eps n)%Qc.

(** Cosine and sine of m times an angle. *)
Fixpoint turns (c s : Qc) (m : nat) : Qc * Qc :=
  match m with
  | 0 => (1, 0)%Qc
  | S m => let p := turns c s m in (fst p * c - snd p * s, snd p * c + fst p * s)%Qc
  end.

(** The x axis; radii from the inner one to the outer one; heights np.isclose tells from 0. *)
Definition ex : list Qc := [1; 0; 0]%Qc.
Definition inner_of (inner : option Qc) : Qc := match inner with Some r => r | None => 0%Qc end.
Definition tall (h : Qc) : Prop := (qc 1 100000000 + qc 1 100000 * qabs h < qabs h)%Qc.
Definition between (lo x hi : Qc) : Prop := (lo <= x)%Qc /\ (x <= hi)%Qc.
