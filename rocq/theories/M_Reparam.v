(** Model of splinepy/helpme/reparametrize.py.  The evaluation kernel is the
    specification S_Value; control points and weights are kept as separate rows
    (the code stores rational control points multiplied with their weight). *)
From Coq Require Import List Arith ZArith QArith Qcanon.
From Verif Require Import Base BaseRadix BaseQc M_Numpy M_Grid M_Extract S_Value.
Import ListNotations.
Local Open Scope nat_scope.

(** set(range(n)) == set(perm), line 36. *)
Definition same_set (n : nat) (perm : list Z) : bool :=
  forallb (fun z => Z.leb 0 z && Z.ltb z (Z.of_nat n)) perm &&
  forallb (fun i => existsb (fun z => Z.eqb z (Z.of_nat i)) perm) (seq 0 n).

(** Lines 60-67: local indices of a global id. *)
Fixpoint local_indices (dims : list nat) (g : nat) : list nat :=
  match dims with
  | [] => []
  | d :: dims => let l := g mod d in l :: local_indices dims ((g - l) / d)
  end.

(** Lines 73-75: matmul with cumprod([1] + dims)[0:-1]. *)
Fixpoint dot_strides (acc : nat) (dims loc : list nat) : nat :=
  match dims, loc with
  | d :: dims, l :: loc => l * acc + dot_strides (acc * d) dims loc
  | _, _ => 0
  end.

(** Lines 6-92.  [None] = exception: not a permutation as a set (36-37), or too
    many entries (the assignment of line 70 cannot broadcast). *)
Definition permute_parametric_axes (s : spline) (perm : list Z) : option spline :=
  let n := length (sp_axes s) in
  if negb (same_set n perm) then None
  else if negb (length perm =? n) then None
  else
    let p := map Z.to_nat perm in
    let axes := map (fun i => nth i (sp_axes s) (BezierAxis 0)) p in   (* 42-50 *)
    let dims := sp_res s in
    let new_dims := map (fun i => nth i dims 0) p in                   (* 53-56 *)
    let keys := map (fun g =>
                  let loc := local_indices dims g in
                  dot_strides 1 new_dims (map (fun i => nth i loc 0) p))
                (seq 0 (length (sp_cps s))) in
    let ids := argsort keys in                                         (* 77 *)
    match pick (sp_cps s) ids, sp_weights s with
    | Some cps, None => Some (Spl axes cps None)
    | Some cps, Some w => match pick w ids with                        (* 78-80 *)
                          | Some w => Some (Spl axes cps (Some w))
                          | None => None
                          end
    | None, _ => None
    end.

(** Lines 135-144: knot vector of a flipped axis. *)
Definition flip_axis (a : paxis) : paxis :=
  match a with
  | BezierAxis p => BezierAxis p
  | KnotAxis p kv =>
      KnotAxis p (map (fun x => (ax_lower a + ax_upper a - x)%Qc) (rev kv))
  end.

(** Lines 129-144: the loop over the axes; carries the axes and, per axis,
    whether its index is reversed. [None] = IndexError. *)
Fixpoint flip_loop (zs : list Z) (axes : list paxis) (flags : list bool)
  : option (list paxis * list bool) :=
  match zs with
  | [] => Some (axes, flags)
  | z :: zs =>
      match py_index (length axes) z with
      | None => None
      | Some k =>
          flip_loop zs (set_nth axes k (flip_axis (nth k axes (BezierAxis 0))))
                    (set_nth flags k true)
      end
  end.

(** Lines 95-157 for a list of axes. *)
Definition flip_axes (s : spline) (zs : list Z) : option spline :=
  match flip_loop zs (sp_axes s) (repeat false (length (sp_axes s))) with
  | None => None
  | Some (axes, flags) =>
      let indexing := map (fun b : bool =>
            if b then ISlice None None (Some (-1)%Z) else ISlice None None None) flags in
      match multi_index_getitem (sp_res s) indexing with
      | None => None
      | Some ids =>
          match pick (sp_cps s) ids, sp_weights s with
          | Some cps, None => Some (Spl axes cps None)
          | Some cps, Some w => match pick w ids with
                                | Some w => Some (Spl axes cps (Some w))
                                | None => None
                                end
          | None, _ => None
          end
      end
  end.
