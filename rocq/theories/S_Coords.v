(** Specification of in-place edits of control points and weights. *)
From Coq Require Import List Arith ZArith Bool QArith Qcanon.
From Verif Require Import Base BaseRadix BaseQc S_Grid S_Spline S_Value M_Numpy M_Coords.
Import ListNotations.
Local Open Scope nat_scope.

(** A core holds control points [a] and weights [w]. *)
Definition holds (c : core) (a : list (list Qc)) (w : list Qc) : Prop :=
  reported_cps c = a /\ length (c_coords c) = length a /\
  (c_rational c = true ->
     c_weights c = w /\ length w = length a /\ Forall (fun x => x <> 0%Qc) w).

(** The array with the rows [rows] edited by [f], row by row. *)
Definition edited {A} (rows : list nat) (f : nat -> A -> A) (a a' : list A) : Prop :=
  length a' = length a /\
  forall i d, i < length a ->
    (In i rows -> nth i a' d = f i (nth i a d)) /\
    (~ In i rows -> nth i a' d = nth i a d).

(** Slices that are mirrored correctly; [n] rows. *)
Definition good_slice (n : nat) (start stop step : option Z) : Prop :=
  let n := Z.of_nat n in
  match step with
  | None => True
  | Some s => (0 < s)%Z
  end /\
  match start with None => True | Some x => (- n <= x)%Z end /\
  match stop with None => True | Some x => (x <= n)%Z end
  \/
  match step, start, stop with
  | Some s, Some x, Some y =>
      (s < 0)%Z /\ (- (2 * n) <= x < n)%Z /\ (- (2 * n) - 1 <= y)%Z
  | _, _, _ => False
  end.

Definition good_key (n : nat) (k : key) : Prop :=
  match k with
  | KSlice a b s => good_slice n a b s
  | KList l => l <> []
  | _ => True
  end.

(** The edits of a sequence, done by numpy alone. *)
Fixpoint pure_edits (es : list edit) (a : list (list Qc)) (w : list Qc)
  : option (list (list Qc) * list Qc) :=
  match es with
  | [] => Some (a, w)
  | EditC k f :: es =>
      match numpy_rows (length a) k with
      | None => None
      | Some rows => pure_edits es (numpy_set rows f a) w
      end
  | EditW k f :: es =>
      match numpy_rows (length w) k with
      | None => None
      | Some rows => pure_edits es a (numpy_set_w rows f w)
      end
  | InPlace f :: es => pure_edits es (numpy_set (seq 0 (length a)) f a) w
  end.

(** Weights written are never zero; keys of control points are good. *)
Definition good_edit (n : nat) (e : edit) : Prop :=
  match e with
  | EditC k _ => good_key n k
  | EditW _ f => forall i x, x <> 0%Qc -> f i x <> 0%Qc
  | InPlace _ => True
  end.

(** Value of the spline the core stores: weighted rows divided by weights. *)
Definition core_value (axes : list paxis) (c : core) (us : list Qc) (d : nat) : Qc :=
  let B := sp_basis axes us in
  let res := map ax_n axes in
  let P := tensor B (fun ix => nth d (nth (flat_id res ix) (c_coords c) []) 0%Qc) in
  if c_rational c
  then (P / tensor B (fun ix => nth (flat_id res ix) (c_weights c) 0))%Qc
  else P.
