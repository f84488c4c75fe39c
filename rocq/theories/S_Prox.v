(** Specification vocabulary for the proximity search. *)
From Coq Require Import List Arith ZArith QArith Qcanon.
From Verif Require Import Base BaseQc M_Solve S_Solve M_Prox.
Import ListNotations.
Local Open Scope nat_scope.

(** The outputs belong to the parametric coordinate [g]: the point at [g], its
    difference to the query and the length of that difference. *)
Definition outputs_at (w : world) (query g : vec) (r : result) : Prop :=
  o_phys r = w_value w g /\
  o_diff r = map (fun p => dsub (fst p) (snd p)) (combine (w_value w g) query) /\
  o_dist r = w_sqrt w (norm2 (o_diff r)) /\
  o_grad r = w_first w g.

Definition consistent (w : world) (query : vec) (r : result) : Prop :=
  outputs_at w query (o_para r) r.

(** Squared distance of the point at [g]. *)
Definition sq_distance (w : world) (query g : vec) : dbl :=
  norm2 (map (fun p => dsub (fst p) (snd p)) (combine (w_value w g) query)).

(** Array sizes: gradients have [n] rows, the solver answers with vectors of the
    size of the right-hand side. *)
Definition sized (n : nat) (w : world) : Prop :=
  (forall g, length (w_first w g) = n) /\ (forall h b, length (w_solve w h b) = length b).
