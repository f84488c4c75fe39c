(** Specification of mfem files. *)
From Coq Require Import List Arith ZArith Bool QArith Qcanon Permutation.
From Verif Require Import Base BaseQc S_Grid S_Value M_Mfem.
Import ListNotations.
Local Open Scope list_scope.
Local Open Scope nat_scope.

(** [t] is [s] as NURBS: same points; same weights or ones; same knots or Bernstein knots. *)
Definition nurbs_of (s t : spline) : Prop :=
  sp_cps t = sp_cps s /\
  sp_weights t = Some (match sp_weights s with Some w => w | None => repeat 1%Qc (length (sp_cps s)) end) /\
  Forall2 (fun a b => match a with
                      | KnotAxis _ _ => b = a
                      | BezierAxis p => b = KnotAxis p (repeat 0%Qc (p + 1) ++ repeat 1%Qc (p + 1))
                      end) (sp_axes s) (sp_axes t).

(** Surfaces and volumes with at least two control points along each axis. *)
Definition mfem_shape (res : list nat) : Prop :=
  (length res = 2 \/ length res = 3) /\ Forall (fun n => 2 <= n) res.

(** [inverse] undoes the numbering [ids] of 0 .. n-1. *)
Definition renumbering (n : nat) (ids inverse : list nat) : Prop :=
  Permutation ids (seq 0 n) /\ length inverse = n /\
  forall k, k < n -> nth k inverse 0 < n /\ nth (nth k inverse 0) ids 0 = k /\ nth (nth k ids 0) inverse 0 = k.

(** Row [k] of [rows] is row [ids k] of [values]. *)
Definition listed {A} (ids : list nat) (values rows : list A) : Prop :=
  Forall2 (fun i r => nth_error values i = Some r) ids rows.
(** A solution file: the values in the order [ids] below the line Ordering. *)
Definition solution_file (ids : list nat) (values : list (list Qc)) (f : list mline) : Prop :=
  exists head rows, f = head ++ Key KOrdering :: map (fun r => Row (map MR r)) rows /\
    ~ In (Key KOrdering) head /\ listed ids values rows.

(** Corners of a grid: one bit for each axis, true at the end of the axis. *)
Fixpoint all_bits (d : nat) : list (list bool) :=
  match d with
  | 0 => [[]]
  | S d => map (cons false) (all_bits d) ++ map (cons true) (all_bits d)
  end.
Definition at_corner (res : list nat) (bs : list bool) : nat :=
  flat_id res (map (fun nb : nat * bool => if snd nb then fst nb - 1 else 0) (combine res bs)).
(** The corners on face [f]: axis f/2, at its end when [f] is odd. *)
Definition face_bits (d f : nat) : list (list bool) :=
  filter (fun bs => Bool.eqb (nth (f / 2) bs false) (Nat.odd f)) (all_bits d).
(** The bits at which two corners differ. *)
Definition apart (a b : list bool) : nat :=
  length (filter (fun xy => xorb (fst xy) (snd xy)) (combine a b)).
(** Neighbours along the cycle differ in one bit. *)
Fixpoint chain (first : list bool) (l : list (list bool)) : Prop :=
  match l with
  | [] => True
  | [x] => apart x first = 1
  | x :: (y :: _) as r => apart x y = 1 /\ chain first r
  end.
Definition around (l : list (list bool)) : Prop := match l with [] => False | x :: _ => chain x l end.

(** Faces with a negative entry, row by row, with the entry. *)
Fixpoint row_negatives (e f : nat) (row : list Z) : list (nat * nat * Z) :=
  match row with
  | [] => []
  | z :: row => if (z <? 0)%Z then (e, f, z) :: row_negatives e (S f) row else row_negatives e (S f) row
  end.
Fixpoint negatives (e : nat) (table : list (list Z)) : list (nat * nat * Z) :=
  match table with
  | [] => []
  | row :: table => row_negatives e 0 row ++ negatives (S e) table
  end.
