(** Ranges of tile parameters and contracts of numpy's functions, used as hypotheses of
    the theorems about tiles. *)
From Coq Require Import List Arith ZArith QArith Qcanon.
From Verif Require Import Base BaseQc M_Tiles S_Tiles.
Import ListNotations.
Local Open Scope list_scope.
Local Open Scope nat_scope.

(** Thicknesses strictly below their bound. *)
Definition thinner (ce : Qc) (p : array2) : Prop := forall x, In x (concat p) -> (x < qc 1 2 /\ x * ce < qc 1 2)%Qc.
(** Sines and cosines between -1 and 1. *)
Definition bounded_trig (m : libm) : Prop := forall x, (- (1) <= sin m x /\ sin m x <= 1 /\ - (1) <= cos m x /\ cos m x <= 1)%Qc.
(** The void's extent, times a factor [k], stays below one half; the parameters are
    r_x, r_yz, rot_x, rot_y. *)
Definition void_fits (k : Qc) (p : array2) : Prop :=
  exists rx ryz a b, concat p = [rx; ryz; a; b] /\ (0 <= rx /\ 0 <= ryz /\ k * (rx + ryz + ryz) < qc 1 2)%Qc.
(** numpy's root of 3 is between 1 and 2. *)
Definition root3_bounds (m : libm) : Prop := (1 <= sqrt m (qc 3 1) /\ sqrt m (qc 3 1) <= qc 2 1)%Qc.
(** Only the sizes r_x and r_yz vary with the design variables. *)
Definition sizes_only (s : array3) : Prop := forall i, i < length (hd [] (hd [] s)) -> at2 (direction s i) 0 2 = 0%Qc /\ at2 (direction s i) 0 3 = 0%Qc.
