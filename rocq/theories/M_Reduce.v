(** Model of remove_knots and reduce_degrees. *)
From Coq Require Import List Arith Bool ZArith QArith Qcanon.
From Verif Require Import Base BaseQc S_Value M_Knots M_Core.
Import ListNotations.
Local Open Scope list_scope.
Local Open Scope nat_scope.

(** What a call does: flags and the object, an exception and the object, or undefined behaviour of
    the library. *)
Inductive reply := Returned (flags : list bool) (st : state) | Raises (st : state) | Undefined.

(** Python indexing; [None] is IndexError. *)
Definition py_item {A} (l : list A) (i : Z) : option A :=
  let n := Z.of_nat (length l) in
  if (0 <=? i)%Z then nth_error l (Z.to_nat i)
  else if (0 <=? i + n)%Z then nth_error l (Z.to_nat (i + n)) else None.

(** [_data] is cleared if anything changed (bspline.py 317-318, spline.py 1538-1539). *)
Definition settle (st : state) (s : spline) (flags : list bool) : state :=
  if existsb (fun b => b) flags
  then St (Some s) None None None None None None (s_fresh st)
  else St (Some s) (s_deg st) (s_kvs st) (s_cps st) (s_ws st) (s_mi st) (s_view st) (s_fresh st).

Section Remove.
(** BSpline::RemoveKnot(Dim, Knot, Tol) of the library: the changed spline and the multiplicity. *)
Context (rem : spline -> nat -> Qc -> Qc -> spline * Z).

(** scalar_type_wrapper.hpp 270-293 *)
Definition scalar_remove (s : spline) (k : nat) (x tol : Qc) : spline * bool :=
  let (s', m) := rem s k x tol in (s', negb (m =? 0)%Z).

(** py_spline_extensions.cpp 65-79 *)
Fixpoint remove_loop (s : spline) (k : nat) (ks : list Qc) (tol : Qc) : spline * list bool :=
  match ks with
  | [] => (s, [])
  | x :: ks =>
      let (s1, b) := scalar_remove s k x tol in
      let (s2, bs) := remove_loop s1 k ks tol in
      (s2, b :: bs)
  end.

(** bspline.py 271-324.  The warning about knot vectors that are not clamped (286-287) is left out; a
    single float is the list with that number. *)
Definition remove_knots (st : state) (d : Z) (ks : list Qc) (tol : Qc) : reply :=
  match s_core st with
  | None => Raises st
  | Some s =>
      if (Z.of_nat (length (sp_axes s)) <=? d)%Z then Raises st                              (* 289-290 *)
      else match ks with
      | [] => Returned [] st                                                                 (* 295-297 *)
      | _ =>
          let (kvs, st) := get_kvs st in
          match match kvs with Some l => py_item l d | None => None end with
          | None => Raises st
          | Some kv =>
              if qltb (qmax_list kv) (qmax_list ks) then Raises st                           (* 299-302 *)
              else if qltb (qmin_list ks) (qmin_list kv) then Raises st                      (* 304-308 *)
              else if (d <? 0)%Z then Undefined                                              (* Dim{-1} *)
              else let (s', flags) := remove_loop s (Z.to_nat d) ks tol in                   (* 310-315 *)
                   Returned flags (settle st s' flags)
          end
      end
  end.
End Remove.

Section Reduce.
(** BSpline::ReduceDegree(Dim, Tol) of the library. *)
Context (red : spline -> nat -> Qc -> spline * bool).

(** py_spline.cpp 808-824; [None]: an exception was thrown.  Bezier types do not implement the
    reduction (splinepy_base.cpp 580-586). *)
Fixpoint reduce_loop (n : nat) (s : spline) (dims : list Z) (tol : Qc) : spline * option (list bool) :=
  match dims with
  | [] => (s, Some [])
  | d :: dims =>
      if (negb (d <? Z.of_nat n) || (d <? 0))%Z then (s, None)
      else if negb (has_kvs s) then (s, None)
      else
        let (s1, b) := red s (Z.to_nat d) tol in                                             (* scalar_type_wrapper.hpp 214-222 *)
        let (s2, bs) := reduce_loop n s1 dims tol in
        (s2, option_map (cons b) bs)
  end.

(** spline.py 1507-1541 *)
Definition reduce_degrees (st : state) (dims : list Z) (tol : Qc) : reply :=
  match s_core st with
  | None => Raises st
  | Some s =>
      match reduce_loop (length (sp_axes s)) s dims tol with
      | (s', Some flags) => Returned flags (settle st s' flags)
      | (s', None) => Raises (St (Some s') (s_deg st) (s_kvs st) (s_cps st) (s_ws st) (s_mi st) (s_view st) (s_fresh st))
      end
  end.
End Reduce.
