(** Specification of elevate_degrees. *)
From Coq Require Import List Arith ZArith QArith Qcanon.
From Verif Require Import Base S_Value.
Import ListNotations.
Local Open Scope nat_scope.

(** The library raises the degree of one axis by [m] and keeps the others. *)
Definition raises_degree (elev : spline -> nat -> nat -> spline) : Prop :=
  forall s d m, d < length (sp_axes s) ->
    length (sp_axes (elev s d m)) = length (sp_axes s) /\
    forall i, nth i (map ax_degree (sp_axes (elev s d m))) 0 =
              nth i (map ax_degree (sp_axes s)) 0 + (if i =? d then m else 0).

Definition valid_dim (s : spline) (d : Z) : Prop := (0 <= d < Z.of_nat (length (sp_axes s)))%Z.

(** How often dimension [i] is requested. *)
Definition asked (dims : list Z) (i : nat) : nat := count_occ Z.eq_dec dims (Z.of_nat i).
