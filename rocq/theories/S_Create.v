(** Specification of created splines. *)
From Coq Require Import List Arith ZArith Bool QArith Qcanon.
From Verif Require Import Base BaseQc S_Value M_Core S_Core S_Files M_Create.
Import ListNotations.
Local Open Scope list_scope.
Local Open Scope nat_scope.

(** A spline of the library whose values are defined: every knot vector has a
    non-empty domain, every weight is positive. *)
Definition sound (limit : nat) (dim : nat) (s : spline) : Prop :=
  storable limit s /\ sp_wf s /\ Forall (fun p => length p = dim) (sp_cps s) /\
  match sp_weights s with Some ws => Forall (fun w => (0 < w)%Qc) ws | None => True end.

(** Coordinate d of a point given by fewer coordinates. *)
Definition embedded_in (dim : nat) (x : nat -> Qc) (d : nat) : Qc := if d <? dim then x d else 0%Qc.

(** Rotation by the angle with cosine [a] and sine [b], in the plane or about a
    unit vector [k] in space. *)
Definition axial (k : option (nat -> Qc)) (x : nat -> Qc) (d : nat) : Qc :=
  match k with
  | None => 0%Qc
  | Some k => ((k 0%nat * x 0%nat + k 1%nat * x 1%nat + k 2%nat * x 2%nat) * k d)%Qc
  end.
Definition quarter (k : option (nat -> Qc)) (x : nat -> Qc) (d : nat) : Qc :=
  match k, d with
  | None, 0 => (- x 1%nat)%Qc
  | None, _ => x 0%nat
  | Some k, 0 => (k 1%nat * x 2%nat - k 2%nat * x 1%nat)%Qc
  | Some k, 1 => (k 2%nat * x 0%nat - k 0%nat * x 2%nat)%Qc
  | Some k, _ => (k 0%nat * x 1%nat - k 1%nat * x 0%nat)%Qc
  end.
Definition turned (k : option (nat -> Qc)) (a b : Qc) (x : nat -> Qc) (d : nat) : Qc :=
  (axial k x d + a * (x d - axial k x d) + b * quarter k x d)%Qc.
Definition unit_axis (k : option (nat -> Qc)) : Prop :=
  match k with
  | None => True
  | Some k => (k 0%nat * k 0%nat + k 1%nat * k 1%nat + k 2%nat * k 2%nat)%Qc = 1%Qc
  end.

(** What is used of cosine and sine: the multiples of the half segment angle. *)
Definition circular (O : oracles) (a : Qc) : Prop :=
  (o_cos O a * o_cos O a + o_sin O a * o_sin O a)%Qc = 1%Qc /\
  o_sin O (o_pi O / inj 2 - a)%Qc = o_cos O a /\ (0 < o_cos O a)%Qc /\
  o_cos O 0%Qc = 1%Qc /\ o_sin O 0%Qc = 0%Qc /\
  forall m, o_cos O (inj (S m) * a)%Qc = (o_cos O (inj m * a) * o_cos O a - o_sin O (inj m * a) * o_sin O a)%Qc /\
            o_sin O (inj (S m) * a)%Qc = (o_sin O (inj m * a) * o_cos O a + o_cos O (inj m * a) * o_sin O a)%Qc.
(** The matrices of rotations; lengths of vectors. *)
Definition square (O : oracles) : Prop :=
  forall axis a, length (o_rotation O axis a) = match axis with None => 2 | Some _ => 3 end.
Definition rotates (O : oracles) (axis : option (list Qc)) (a : Qc) : Prop :=
  let n := match axis with None => 2 | Some _ => 3 end in
  length (o_rotation O axis a) = n /\
  forall p d, length p = n -> d < n ->
    dot (nth d (o_rotation O axis a) []) p = turned (option_map (fun l d => nth d l 0%Qc) axis) (o_cos O a) (o_sin O a) (fun j => nth j p 0%Qc) d.
Definition measures (O : oracles) (v : list Qc) : Prop :=
  (o_norm O v * o_norm O v)%Qc = dot v v.

(** Sensible constants. *)
Definition constants (O : oracles) : Prop := (0 < o_pi O)%Qc /\ (0 < o_tolerance O)%Qc.

(** The angle in radians; a full turn by default. *)
Definition radians (O : oracles) (angle : option Qc) (degree : bool) : Qc :=
  match angle with
  | None => (inj 2 * o_pi O)%Qc
  | Some a => if degree then (a / inj 180 * o_pi O)%Qc else a
  end.
(** The unit vector along a given axis in space. *)
Definition direction (O : oracles) (axis : option (list Qc)) : option (list Qc) :=
  match axis with
  | Some v => if length v =? 3 then Some (map (fun x => (x / o_norm O v)%Qc) v) else None
  | None => None
  end.
(** Dimension of the revolved spline. *)
Definition revolved_dim (dim : nat) (axis : option (list Qc)) : nat :=
  match axis with Some v => length v | None => dim end.
Definition origin (center : option (list Qc)) (d : nat) : Qc :=
  match center with Some c => nth d c 0%Qc | None => 0%Qc end.
Definition as_vector (k : option (list Qc)) : option (nat -> Qc) := option_map (fun l d => nth d l 0%Qc) k.

(** Enough segments for the angle, at least as many as asked for. *)
Definition enough_spans (O : oracles) (angle : Qc) (asked : option Z) (n : nat) : Prop :=
  1 <= n /\ (qabs angle < inj n * o_pi O)%Qc /\
  match asked with Some z => (z <= Z.of_nat n)%Z | None => True end.

(** The library can hold one more parametric dimension; splines without knot
    vectors are limited in the dimension of their points too. *)
Definition room (limit dim' : nat) (s : spline) : Prop :=
  length (sp_axes s) < limit /\ ((exists p, In (BezierAxis p) (sp_axes s)) -> dim' <= limit).
(** The arguments are all there, and of matching sizes. *)
Definition matching (c : cls) (i : inputs) : Prop :=
  exists degs kvs cps ws, complete c i degs kvs cps ws /\ consistent degs kvs cps ws.
