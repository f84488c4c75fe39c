(** Specification vocabulary for microstructure tiles: lists of splines over the
    unit cell. *)
From Coq Require Import String List Arith ZArith QArith Qcanon.
From Verif Require Import Base BaseQc S_Grid S_Spline S_Value S_Deriv S_Integrate.
Import ListNotations.
Local Open Scope list_scope.
Local Open Scope nat_scope.

Definition in_box (n : nat) (v : list Qc) : Prop := length v = n /\ Forall (fun x => 0 <= x /\ x <= 1)%Qc v.
Definition para_dim (p : spline) : nat := length (sp_axes p).

(** Every point of the tile lies in the unit cell. *)
Definition inside_cell (dim : nat) (T : list spline) : Prop :=
  forall p u c, In p T -> in_box (para_dim p) u -> c < dim -> (0 <= sp_value p u c /\ sp_value p u c <= 1)%Qc.

(** Point of the facet of [p] where parameter [k] is at its upper or lower bound. *)
Definition bound (up : bool) : Qc := if up then 1%Qc else 0%Qc.
Definition facet_value (p : spline) (k : nat) (up : bool) (v : list Qc) (c : nat) : Qc :=
  sp_value p (insert_at k (bound up) v) c.
(** The facet lies in the plane where coordinate [a] is [x]. *)
Definition on_plane (p : spline) (k : nat) (up : bool) (a : nat) (x : Qc) : Prop :=
  forall v, in_box (para_dim p - 1) v -> facet_value p k up v a = x.
(** Facet ([p], [k], [up]) is facet ([q], [l], [uq]) moved by one along [a]; some of
    the parameters may run the other way. *)
Definition flipped (fl : list bool) (v : list Qc) : list Qc :=
  map (fun bx => if fst bx : bool then (1 - snd bx)%Qc else snd bx) (combine fl v).
Definition same_facet (dim a : nat) (p : spline) (k : nat) (up : bool) (q : spline) (l : nat) (uq : bool) : Prop :=
  para_dim p = para_dim q /\
  exists fl, length fl = para_dim p - 1 /\
  forall v c, in_box (para_dim p - 1) v -> c < dim ->
    facet_value p k up v c = (facet_value q l uq (flipped fl v) c + (if c =? a then 1 else 0))%Qc.
(** Tile [B] set next to tile [A] in direction [a]: every facet of [A] in the common
    plane is a facet of [B] there and the other way round. *)
Definition glued (dim a : nat) (A B : list spline) : Prop :=
  (forall p k up, In p A -> k < para_dim p -> on_plane p k up a 1 ->
     exists q l uq, In q B /\ l < para_dim q /\ on_plane q l uq a 0 /\ same_facet dim a p k up q l uq) /\
  (forall q l uq, In q B -> l < para_dim q -> on_plane q l uq a 0 ->
     exists p k up, In p A /\ k < para_dim p /\ on_plane p k up a 1 /\ same_facet dim a p k up q l uq).
(** The tile has a facet in the plane, i.e. there is something to glue. *)
Definition touches (a : nat) (x : Qc) (T : list spline) : Prop :=
  exists p k up, In p T /\ k < para_dim p /\ on_plane p k up a x.

(** The tile fills its side where coordinate [a] is [x]. *)
Definition covers_side (dim a : nat) (x : Qc) (T : list spline) : Prop :=
  forall y, in_box dim y -> nth a y 0%Qc = x ->
    exists p u, In p T /\ in_box (para_dim p) u /\ forall c, c < dim -> sp_value p u c = nth c y 0%Qc.

(** No patch is degenerate or turned inside out: its Jacobian determinant is
    positive inside. *)
Definition right_handed (T : list spline) : Prop :=
  forall p u J, In p T -> Forall (fun x => 0 < x /\ x < 1)%Qc u -> length u = para_dim p ->
    jacobian p u J -> (0 < det (para_dim p) J)%Qc.

(** Parameters moved along a direction. *)
Definition moved (p d : list (list Qc)) (t : Qc) : list (list Qc) :=
  map (fun rs => map (fun xy => fst xy + t * snd xy)%Qc (combine (fst rs) (snd rs))) (combine p d).
(** [D] is the rate at which the tile [T] of parameters [p] changes along [d]: patch by
    patch, at every parametric position, among the parameters near [p] that
    give a tile. *)
Definition changes_by (dim : nat) (make : list (list Qc) -> option (list spline)) (p d : list (list Qc))
    (T D : list spline) : Prop :=
  length D = length T /\
  forall k u c, k < length T -> in_box (para_dim (nth k T (Spl [] [] None))) u -> c < dim ->
    forall e, (0 < e)%Qc -> exists r, (0 < r)%Qc /\
      forall t T', (qabs t < r)%Qc -> make (moved p d t) = Some T' ->
        (qabs (sp_value (nth k T' (Spl [] [] None)) u c - sp_value (nth k T (Spl [] [] None)) u c
               - t * sp_value (nth k D (Spl [] [] None)) u c) <= e * qabs t)%Qc.

(** Names of the faces; a tile is closed at one of them or at none. *)
Definition face_names : list (string * string) := [("x_min", "x_max"); ("y_min", "y_max"); ("z_min", "z_max")]%string.
Definition min_face (a : nat) : string := fst (nth a face_names (""%string, ""%string)).
Definition max_face (a : nat) : string := snd (nth a face_names (""%string, ""%string)).
(** A tile that continues above, below, and one that runs along a closed face. *)
Definition open_above (a : nat) (cl : option string) : Prop := cl = None \/ cl = Some (min_face a).
Definition open_below (a : nat) (cl : option string) : Prop := cl = None \/ cl = Some (max_face a).
Definition beside (dim a : nat) (cl : option string) : Prop :=
  exists b, b < dim /\ b <> a /\ (cl = Some (min_face b) \/ cl = Some (max_face b)).
(** Sensitivities with respect to design variable [i]. *)
Definition direction (s : list (list (list Qc))) (i : nat) : list (list Qc) := map (map (fun l => nth i l 0%Qc)) s.
(** The list of derivative tiles returned for the sensitivities [s] at parameters
    [p]: one for each design variable, and each the rate of change. *)
Definition right_rates (dim : nat) (make : list (list Qc) -> option (list spline)) (p : list (list Qc))
    (s : list (list (list Qc))) (T : list spline) (Ds : option (list (list spline))) : Prop :=
  exists D, Ds = Some D /\ length D = length (hd [] (hd [] s)) /\
    forall i, i < length (hd [] (hd [] s)) -> changes_by dim make p (direction s i) T (nth i D []).
(** The tile closes the side where coordinate [a] is [x]. *)
Definition closes (a : nat) (cl : option string) (x : Qc) : Prop := (cl = Some (min_face a) /\ x = 0%Qc) \/ (cl = Some (max_face a) /\ x = 1%Qc).
