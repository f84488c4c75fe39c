(** Model of extract.spline (splinepy/helpme/extract.py 407-508).

    [ins s k x]: one call of SplinepyInsertKnot (BSplineLib), an oracle.  split_plane is the
    raveled array of floats; other types (TypeError, ValueError) are not modelled.  para_dim is
    not negative.  [None]: an exception. *)
From Coq Require Import List Arith ZArith Bool QArith Qcanon.
From Verif Require Import Base BaseQc S_Value M_Numpy M_Grid M_Core M_Extract M_Bezier M_Create.
Import ListNotations.
Local Open Scope list_scope.
Local Open Scope nat_scope.

Section Extract.
Variables (limit : nat) (tol : Qc) (ins : spline -> nat -> Qc -> spline).

(** BSpline.insert_knots, bspline.py 94-117: knots beyond the largest or smallest one raise,
    then one insertion after the other (py_spline_extensions.cpp). *)
Definition insert_knots (s : spline) (k : nat) (xs : list Qc) : option spline :=
  match nth_error (sp_axes s) k with
  | None => None
  | Some a =>
      if forallb (fun x => existsb (qleb x) (ax_kv a) && existsb (fun y => qleb y x) (ax_kv a)) xs
      then Some (fold_left (fun s x => ins s k x) xs s) else None
  end.
(** 456-459 *)
Fixpoint insert_rounds (n k : nat) (xs : list Qc) (s : spline) : option spline :=
  match n with
  | 0 => Some s
  | S n => match insert_knots s k xs with Some s => insert_rounds n k xs s | None => None end
  end.

(** np.where(abs(kv - x) < tol)[0][-1]; [None]: IndexError *)
Definition last_near (kv : list Qc) (x : Qc) : option nat :=
  match rev (filter (fun i => qltb (qabs (nth i kv 0 - x)%Qc) tol) (seq 0 (length kv))) with
  | [] => None
  | i :: _ => Some i
  end.

Definition replace_at {A} (k : nat) (x : A) (l : list A) : list A := firstn k l ++ x :: skipn (S k) l.

(** kv[a : b] *)
Definition slice (kv : list Qc) (a b : Z) : list Qc :=
  match slice_positions (length kv) (Some a) (Some b) None with
  | Some ps => map (fun i => nth i kv 0%Qc) ps
  | None => []
  end.

(** 461-508 for the copy [c] with knots inserted *)
Definition cut (s c : spline) (k : nat) (first final : Qc) (is_interval : bool) : option spline :=
  match nth_error (sp_axes c) k with
  | None => None
  | Some a =>
      let p := Z.of_nat (ax_degree a) in
      let kv := ax_kv a in
      match last_near kv first, last_near kv final with                              (* 462-476 *)
      | Some i0, Some i1 =>
          let start := (Z.of_nat i0 - p)%Z in
          let stop := (Z.of_nat i1 - p)%Z in
          let start := if is_interval then start
                       else if qltb (qabs (last kv 0 - final)%Qc) tol then (start - 1)%Z else start in  (* 481-487 *)
          let indices := map (fun j => if j =? k then if is_interval then ISlice (Some start) (Some stop) None else IInt start
                                       else ISlice None None None) (seq 0 (length (sp_axes c))) in
          match multi_index_getitem (sp_res c) indices with                          (* 491 *)
          | None => None
          | Some ids =>
              match pick (sp_cps c) ids, match sp_weights c with Some ws => option_map Some (pick ws ids) | None => Some None end with
              | Some cps, Some ws =>
                  make limit s (Inputs
                    (Some (if is_interval then core_degrees c else remove_at k (core_degrees c)))     (* 496-498 *)
                    (if has_kvs s                                                                    (* 499-504 *)
                     then Some (if is_interval then replace_at k (slice kv start (stop + p + 1)) (core_kvs c)
                                else remove_at k (core_kvs c))
                     else None)
                    (Some cps) ws)
              | _, _ => None
              end
          end
      | _, _ => None
      end
  end.

(** 407-508 *)
Definition sub_spline (s : spline) (k : nat) (split_plane : list Qc) : option spline :=
  if length (sp_axes s) <? k then None                                               (* 432-436 *)
  else if 2 <? length split_plane then None                                          (* 443-444 *)
  else
    let copy := same_spline_with_knot_vectors s in                                   (* 449-452 *)
    match nth_error (sp_axes copy) k with
    | None => None
    | Some a =>
        match insert_rounds (ax_degree a + 1) k split_plane copy, split_plane with
        | Some c, first :: _ => cut s c k first (last split_plane first) (length split_plane =? 2)
        | _, _ => None
        end
    end.
End Extract.
