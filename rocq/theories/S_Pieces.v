(** Specification of Bezier patches of a spline. *)
From Coq Require Import List Arith ZArith QArith Qcanon Sorted.
From Verif Require Import BaseQc S_Grid S_Spline S_Value S_Knots.
Import ListNotations.
Local Open Scope nat_scope.

(** Sum of the multiplicities of the inner knots 1 .. c. *)
Definition first_id (m : list nat) (c : nat) : nat := list_sum (firstn c (tl m)).

(** Pointwise: c_k < n_k for every axis. *)
Definition below (ns cs : list nat) : Prop := Forall2 (fun n c => c < n) ns cs.

(** Control points along each axis / patches along each axis. *)
Definition points_per_axis (ms : list (list nat)) (degrees : list nat) : list nat :=
  map (fun md => list_sum (fst md) - snd md - 1) (combine ms degrees).
Definition patches_per_axis (ms : list (list nat)) : list nat := map (fun m => length m - 1) ms.

(** Multi index of local point j of patch c. *)
Definition patch_index (ms : list (list nat)) (c j : list nat) : list nat :=
  map (fun mcj => first_id (fst (fst mcj)) (snd (fst mcj)) + snd mcj) (combine (combine ms c) j).

(** A knot vector that consists of Bezier pieces: distinct knots us with
    multiplicities m; p+1 at both ends, at least p in between. *)
Definition piecewise_bezier (p : nat) (kv us : list Qc) (m : list nat) : Prop :=
  kv = expand_knots us m /\ StronglySorted Qclt us /\ length us = length m /\ 2 <= length m /\
  nth 0 m 0 = p + 1 /\ nth (length m - 1) m 0 = p + 1 /\
  (forall i, i < length m -> p <= nth i m 0 /\ 0 < nth i m 0).

(** u is the parameter of patch number c that corresponds to t in the unit
    interval.  At the upper end of a patch the spline takes the value of the
    next one, so t = 1 is allowed only in the last patch or if the pieces join
    continuously. *)
Definition local_parameter (p : nat) (us : list Qc) (m : list nat) (c : nat) (t u : Qc) : Prop :=
  S c < length us /\ (0 <= t)%Qc /\ (t <= 1)%Qc /\
  (t = 1%Qc -> S (S c) = length us \/ nth (S c) m 0 = p) /\
  u = (nth c us 0%Qc + t * (nth (S c) us 0%Qc - nth c us 0%Qc))%Qc.

(** Every axis consists of Bezier pieces; per axis the distinct knots and their
    multiplicities. *)
Definition bezier_form (axes : list paxis) (um : list (list Qc * list nat)) : Prop :=
  Forall2 (fun a x => exists p kv, a = KnotAxis p kv /\ piecewise_bezier p kv (fst x) (snd x)) axes um.

(** [us] is the parameter of patch [cs] that corresponds to [ts] in the unit cube. *)
Inductive patch_parameter : list paxis -> list (list Qc * list nat) -> list nat -> list Qc -> list Qc -> Prop :=
| patch_nil : patch_parameter [] [] [] [] []
| patch_cons a axes x um c cs t ts u us :
    local_parameter (ax_degree a) (fst x) (snd x) c t u -> patch_parameter axes um cs ts us ->
    patch_parameter (a :: axes) (x :: um) (c :: cs) (t :: ts) (u :: us).

Definition patch_counts (um : list (list Qc * list nat)) : list nat := map (fun x => length (fst x) - 1) um.
