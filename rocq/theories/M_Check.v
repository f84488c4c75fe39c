(** Model of splinepy/helpme/check.py: valid_queries (8-57) and clamped_knot_vectors (60-98). *)
From Coq Require Import List Arith ZArith Bool QArith Qcanon.
From Verif Require Import Base BaseQc S_Value M_Core.
Import ListNotations.
Local Open Scope list_scope.
Local Open Scope nat_scope.

(** A float array of two dimensions: number of columns (shape[1]) and rows. *)
Record table := Table { t_cols : nat; t_rows : list (list Qc) }.

(** What valid_queries does.  [Below]/[Above]: ValueError naming error_dim and error_query. *)
Inductive verdict := Valid | Mismatch | NoRows | NoDimension | Below (error_dim error_query : nat) | Above (error_dim error_query : nat).

(** np.min / np.argmin (np.max / np.argmax) of one column: an entry replaces the best one so far only if it is better. *)
Fixpoint best_from (better : Qc -> Qc -> bool) (best : Qc) (at_ i : nat) (l : list Qc) : Qc * nat :=
  match l with
  | [] => (best, at_)
  | x :: l => if better x best then best_from better x i (S i) l else best_from better best at_ (S i) l
  end.
Definition best (better : Qc -> Qc -> bool) (l : list Qc) : Qc * nat :=
  match l with [] => (0%Qc, 0) | x :: l => best_from better x 0 1 l end.
Definition column (q : table) (d : nat) : list Qc := map (fun r => nth d r 0%Qc) (t_rows q).
Definition lowest (q : table) (d : nat) : Qc * nat := best qltb (column q d).
Definition highest (q : table) (d : nat) : Qc * nat := best (fun x y => qltb y x) (column q d).

(** np.where(flags)[0] *)
Definition where_ (f : nat -> bool) (n : nat) : list nat := filter f (seq 0 n).

(** 26-57 *)
Definition valid_queries (s : spline) (q : table) : verdict :=
  let n := length (sp_axes s) in
  let lower d := nth d (map ax_lower (sp_axes s)) 0%Qc in
  let upper d := nth d (map ax_upper (sp_axes s)) 0%Qc in
  if negb (n =? t_cols q) then Mismatch                                                (* 27-32 *)
  else if length (t_rows q) =? 0 then NoRows                                           (* np.min of no rows *)
  else if existsb (fun d => qltb (fst (lowest q d)) (lower d)) (seq 0 n)               (* 35-36 *)
  then match where_ (fun d => qltb (fst (lowest q d)) (upper d)) n with                (* 37: bounds[1, :] *)
       | [] => NoDimension
       | d :: _ => Below d (snd (lowest q d))
       end
  else if existsb (fun d => qltb (upper d) (fst (highest q d))) (seq 0 n)              (* 47-48 *)
  then match where_ (fun d => qltb (upper d) (fst (highest q d))) n with
       | [] => NoDimension
       | d :: _ => Above d (snd (highest q d))
       end
  else Valid.

(** 83-96 for one axis: kv[:d+1] against kv[0] and kv[-(d+1):] against kv[-1] *)
Definition close_to (tol x : Qc) (l : list Qc) : bool := forallb (fun k => qltb (qabs (k - x)%Qc) tol) l.
Definition clamped_axis (tol : Qc) (d : nat) (kv : list Qc) : bool :=
  close_to tol (hd 0%Qc kv) (firstn (d + 1) kv) && close_to tol (last kv 0%Qc) (skipn (length kv - (d + 1)) kv).
(** 75-98; degrees and knot vectors are known. *)
Definition clamped_knot_vectors (tol : Qc) (s : spline) : bool :=
  if negb (has_kvs s) then true
  else forallb (fun a => match a with BezierAxis _ => true | KnotAxis d kv => clamped_axis tol d kv end) (sp_axes s).
