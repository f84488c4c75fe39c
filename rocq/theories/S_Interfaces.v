(** Specification of patch interfaces. *)
From Coq Require Import List Arith ZArith QArith Qcanon.
From Verif Require Import BaseQc.
Import ListNotations.
Local Open Scope nat_scope.

(** What is needed of a square root: it bounds every number whose square does
    not exceed the argument.  (The correctly rounded root of a double does so
    for doubles.) *)
Definition root_bound (sqrt : Qc -> Qc) : Prop :=
  forall x q, (x * x <= q)%Qc -> (qabs x <= sqrt q)%Qc.

(** Two points are closer than the tolerance (Euclidean distance). *)
Definition close (tol : Qc) (p q : list Qc) : Prop :=
  (0 < tol)%Qc /\
  (qsum (map (fun xy => (fst xy - snd xy) * (fst xy - snd xy))%Qc (combine p q)) < tol * tol)%Qc.

(** Points [i] and [j] are different faces in the same position. *)
Definition meet (tol : Qc) (ps : list (list Qc)) (i j : nat) : Prop :=
  i < length ps /\ j < length ps /\ i <> j /\ close tol (nth i ps []) (nth j ps []).

(** The table of interfaces. *)
Definition interface_table (tol : Qc) (ps : list (list Qc)) (conn : list Z) : Prop :=
  length conn = length ps /\
  forall i, i < length ps ->
    (nth i conn 0%Z = (-1)%Z /\ forall j, ~ meet tol ps i j) \/
    (exists j, nth i conn 0%Z = Z.of_nat j /\ meet tol ps i j /\
               nth j conn 0%Z = Z.of_nat i /\ forall k, meet tol ps i k -> k = j).

(** Three faces in one position. *)
Definition crowded (tol : Qc) (ps : list (list Qc)) : Prop :=
  exists i j k, meet tol ps i j /\ meet tol ps i k /\ j <> k.

(** Positions are told apart by the tolerance: being close is transitive. *)
Definition separated (tol : Qc) (ps : list (list Qc)) : Prop :=
  forall i j k, meet tol ps i j -> meet tol ps j k -> i <> k -> meet tol ps i k.

(** Points of one dimension. *)
Definition points (dim : nat) (ps : list (list Qc)) : Prop := Forall (fun p => length p = dim) ps.

(** ** Table of connected pairs *)

(** An interface table: boundary (-1 or smaller) or the connected face, which
    is connected to the first one. *)
Definition symmetric_table (conn : list Z) : Prop :=
  forall i, i < length conn -> (0 <= nth i conn 0)%Z ->
    exists j, nth i conn 0%Z = Z.of_nat j /\ j < length conn /\ j <> i /\
              nth j conn 0%Z = Z.of_nat i.

(** ** Orientation *)
Definition inner (u v : list Qc) : Qc := qsum (map (fun xy => fst xy * snd xy)%Qc (combine u v)).

(** A root that is exact on squares. *)
Definition root_exact (sqrt : Qc -> Qc) : Prop := forall x, sqrt (x * x)%Qc = qabs x.

(** [e j] is the only tangent of the second patch in the direction of [s] *)
Definition same_line (tol : Qc) (s : list Qc) (je : list (list Qc)) (j : nat) (c : Qc) : Prop :=
  j < length je /\ c <> 0%Qc /\ inner (nth j je []) (nth j je []) <> 0%Qc /\
  s = map (fun x => c * x)%Qc (nth j je []) /\
  forall k, k < length je -> k <> j ->
    (inner s (nth k je []) * inner s (nth k je [])
       <= (1 - tol) * (1 - tol) * (inner s s * inner (nth k je []) (nth k je [])))%Qc.
