(** Specification of boundary bookkeeping. *)
From Coq Require Import List Arith ZArith Relations.
From Verif Require Import M_Boundaries.
Import ListNotations.
Local Open Scope nat_scope.

(** Entries that tell a boundary face: negative. *)
Definition boundary_face (t : list Z) (i : nat) : Prop := i < length t /\ (nth i t 0 < 0)%Z.

(** [t'] differs from [t] at boundary faces only, which stay boundary faces. *)
Definition boundary_edit (t t' : list Z) : Prop :=
  length t' = length t /\
  forall i, i < length t ->
    ((0 <= nth i t 0)%Z -> nth i t' 0%Z = nth i t 0%Z) /\
    ((nth i t 0 < 0)%Z -> (nth i t' 0 < 0)%Z).

(** Exactly the faces satisfying [p] receive the id [b]. *)
Definition relabelled (t : list Z) (p : nat -> Prop) (b : Z) (t' : list Z) : Prop :=
  length t' = length t /\
  forall i, i < length t -> (p i -> nth i t' 0%Z = b) /\ (~ p i -> nth i t' 0%Z = nth i t 0%Z).

(** A python index: i or i - n. *)
Definition names (n : nat) (z : Z) (i : nat) : Prop :=
  i < n /\ (z = Z.of_nat i \/ z = Z.of_nat i - Z.of_nat n)%Z.

(** Face [i] is one of the named (patch, face) pairs. *)
Definition named_face (patches faces : nat) (ids : list (Z * Z)) (i : nat) : Prop :=
  exists z w p f, In (z, w) ids /\ names patches z p /\ names faces w f /\ i = p * faces + f.

(** Faces chosen by a function and a mask of ids (given with or without sign). *)
Definition selected (t : list Z) (on : nat -> bool) (mask : option (list Z)) (i : nat) : Prop :=
  on i = true /\ match mask with
                 | None => (nth i t 0 < 0)%Z
                 | Some m => exists x, In x m /\ nth i t 0%Z = (- Z.abs x)%Z
                 end.

(** Faces whose id is in the mask. *)
Definition masked (t : list Z) (mask : list Z) (i : nat) : Prop :=
  exists x, In x mask /\ nth i t 0%Z = (- Z.abs x)%Z.
Definition least (mask : list Z) (m : Z) : Prop := In m mask /\ forall x, In x mask -> (m <= x)%Z.

(** Calls that do not mention the id 0; [combine_boundaries] with negative ids. *)
Definition id_ok (id : option Z) : Prop := id <> Some 0%Z.
Definition safe_call (o : bop) : Prop :=
  match o with
  | SetBoundary _ id => id_ok id
  | FromFunction _ mask id => id_ok id /\ match mask with None => True | Some m => ~ In 0%Z m end
  | Combine mask => Forall (fun x => x < 0)%Z mask
  end.

(** The tables of a boundary of [n] patches: connections are mutual.  Faces without
    neighbour carry a negative entry. *)
Definition mutual (n faces : nat) (conn : list Z) : Prop :=
  forall k, k < n * faces -> (nth k conn 0 < 0)%Z \/
    exists l, nth k conn 0%Z = Z.of_nat l /\ l < n * faces /\ nth l conn 0%Z = Z.of_nat k.

(** Two patches meet at faces whose normals agree. *)
Definition touches (n faces : nat) (conn : list Z) (smooth : nat -> nat -> bool) (a b : nat) : Prop :=
  exists k l, k < n * faces /\ l < n * faces /\ nth k conn 0%Z = Z.of_nat l /\
    smooth k l = true /\ k / faces = a /\ l / faces = b.
Definition chain n faces conn smooth := clos_refl_trans nat (touches n faces conn smooth).

(** Ids 1 .. m tell the classes of [chain]. *)
Definition classes (n faces : nat) (conn : list Z) (smooth : nat -> nat -> bool)
  (ids : list nat) (m : nat) : Prop :=
  length ids = n /\
  (forall a b, a < n -> b < n -> (nth a ids 0 = nth b ids 0 <-> chain n faces conn smooth a b)) /\
  (forall v, 1 <= v <= m <-> exists a, a < n /\ nth a ids 0 = v).

(** The faces of the first patch all have neighbours (or carry an id of at most
    - faces). *)
Definition first_linked (n faces : nat) (conn : list Z) : Prop :=
  forall k, k < faces -> k < n * faces -> (0 <= nth k conn 0)%Z \/ (nth k conn 0 <= - Z.of_nat faces)%Z.

(** The number of boundary faces before face [i]. *)
Definition rank (t : list Z) (i : nat) : nat := length (filter (fun v => v <? 0)%Z (firstn i t)).

(** The j-th boundary face of [t] carries the j-th id, nothing else changed. *)
Definition labelled (t : list Z) (ids : list nat) (t' : list Z) : Prop :=
  length t' = length t /\ forall i, i < length t ->
    ((0 <= nth i t 0)%Z -> nth i t' 0%Z = nth i t 0%Z) /\
    ((nth i t 0 < 0)%Z -> nth i t' 0%Z = (- Z.of_nat (nth (rank t i) ids 0%nat))%Z).
Definition boundary_count (t : list Z) : nat := rank t (length t).
