(** Specification of sampling grids and control point numbering. *)
From Coq Require Import List Arith ZArith QArith Qcanon Sorted.
From Verif Require Import BaseQc.
Import ListNotations.
Local Open Scope nat_scope.

(** Product of the first k resolutions: stride of axis k. *)
Definition stride (res : list nat) (k : nat) : nat := fold_right Nat.mul 1 (firstn k res).

(** Position along axis k of the item number id, first axis fastest. *)
Definition axis_position (res : list nat) (id k : nat) : nat :=
  (id / stride res k) mod (nth k res 0).

(** Coordinate k of sample number id of a regular grid. *)
Definition sample_coordinate (lower upper : nat -> Qc) (res : list nat) (id k : nat) : Qc :=
  (lower k + (upper k - lower k) / inj (nth k res 0%nat - 1) * inj (axis_position res id k))%Qc.

(** Control point id of a multi index. *)
Definition flat_id (res idx : list nat) : nat :=
  fold_right Nat.add 0 (map (fun k => nth k idx 0 * stride res k) (seq 0 (length res))).

(** ids are exactly the ids whose position along [axis] is [plane], ascending. *)
Definition is_plane (res : list nat) (axis plane : nat) (ids : list nat) : Prop :=
  StronglySorted lt ids /\
  forall g, In g ids <-> g < fold_right Nat.mul 1 res /\ axis_position res g axis = plane.
