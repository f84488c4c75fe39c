(** Model of knot vector queries and refinement requests: unique knots,
    multiplicities, Greville abscissae, batched insertion, uniform_refine,
    normalize_knot_vectors.  BSplineLib is not part of /repo: its knot
    insertion is a function argument (oracle), DetermineMultiplicities and Scale
    are written from their documented meaning. *)
From Coq Require Import List Arith ZArith QArith Qcanon.
From Verif Require Import Base BaseQc S_Spline S_Value.
Import ListNotations.
Local Open Scope nat_scope.

(** std::unique / std::unique_copy: an element is dropped if it equals the last
    one kept. *)
Section Unique.
Context {A : Type} (same : A -> A -> bool).
Fixpoint unique_from (cur : A) (l : list A) : list A :=
  match l with
  | [] => []
  | x :: r => if same cur x then unique_from cur r else x :: unique_from x r
  end.
Definition std_unique (l : list A) : list A :=
  match l with [] => [] | x :: r => x :: unique_from x r end.
End Unique.

(** Knots closer than eps count as equal (bsplinelib kEpsilon in
    py_parameter_space.cpp 203, epsilon() in arrays.hpp 622-629). *)
Definition near (eps x y : Qc) : bool := qltb (qabs (x - y)%Qc) eps.

(** src/py/py_parameter_space.cpp 176-223 for one axis. *)
Definition unique_knots (eps : Qc) (p : nat) (kv : list Qc) : list Qc :=
  std_unique (near eps) (firstn (length kv - 2 * p) (skipn p kv)).

(** splinepy/spline.py 903-925 for one axis of degree p: KnotVector.multiplicities
    = DetermineMultiplicities (run lengths of near-equal knots over the whole
    knot vector); d+1, d+1 for Bezier types. *)
Fixpoint runs_from {A} (same : A -> A -> bool) (cur : A) (m : nat) (l : list A) : list nat :=
  match l with
  | [] => [m]
  | x :: r => if same cur x then runs_from same cur (S m) r else m :: runs_from same x 1 r
  end.
Definition run_lengths {A} (same : A -> A -> bool) (l : list A) : list nat :=
  match l with [] => [] | x :: r => runs_from same x 1 r end.
Definition axis_unique (eps : Qc) (a : paxis) : list Qc :=
  match a with BezierAxis _ => [0; 1]%Qc | KnotAxis p kv => unique_knots eps p kv end.
Definition axis_multiplicities (eps : Qc) (a : paxis) : list nat :=
  match a with BezierAxis p => [p + 1; p + 1] | KnotAxis _ kv => run_lengths (near eps) kv end.

(** include/splinepy/utils/arrays.hpp 587-601: stable argsort. *)
Fixpoint ainsert (v : nat -> Qc) (i : nat) (l : list nat) : list nat :=
  match l with
  | [] => [i]
  | j :: r => if qleb (v i) (v j) then i :: l else j :: ainsert v i r
  end.
Definition stable_argsort (ks : list Qc) : list nat :=
  fold_right (ainsert (fun i => nth i ks 0%Qc)) [] (seq 0 (length ks)).

(** arrays.hpp 641-648: walk from the current group's first element to the next
    unique index; [None] = walks off the array. *)
Fixpoint walk (u_next : nat) (m : nat) (l : list nat) : option (nat * list nat) :=
  match l with
  | [] => None
  | x :: r => if x =? u_next then Some (m, l) else walk u_next (S m) r
  end.
(** arrays.hpp 636-652; [rest] starts at arg_ptr. *)
Fixpoint multiplicities (uniq : list nat) (rest : list nat) : option (list nat) :=
  match uniq with
  | [] => None                     (* multiplicity.end() - 1 of an empty array *)
  | _ :: uniq' =>
      match uniq' with
      | [] => Some [length rest]
      | u_next :: _ =>
          match walk u_next 1 (tl rest) with
          | None => None
          | Some (m, rest) =>
              match multiplicities uniq' rest with
              | None => None
              | Some ms => Some (m :: ms)
              end
          end
      end
  end.

Section Insert.
(** SplinepyInsertKnot (scalar_type_wrapper.hpp 240-269): new state and number
    of knots added. *)
Context {St : Type} (kernel : St -> Qc -> nat -> St * nat).

(** src/py/py_spline_extensions.cpp 55-58: flags of one group. *)
Fixpoint write_flags (arg : list nat) (m added : nat) (flags : list (option bool))
  : list nat * list (option bool) :=
  match m, arg with
  | S m, i :: arg => write_flags arg m (added - 1) (set_nth flags i (Some (0 <? added)))
  | _, _ => (arg, flags)
  end.
(** 49-59 *)
Fixpoint insert_groups (ks : list Qc) (uniq ms arg : list nat) (st : St)
    (flags : list (option bool)) : St * list (option bool) :=
  match uniq, ms with
  | u :: uniq, m :: ms =>
      let (st, added) := kernel st (nth u ks 0%Qc) m in
      let (arg, flags) := write_flags arg m added flags in
      insert_groups ks uniq ms arg st flags
  | _, _ => (st, flags)
  end.
(** 33-63; [None] = read or write outside an array. *)
Definition insert_knots_core (eps : Qc) (st : St) (ks : list Qc) : option (St * list (option bool)) :=
  let arg := stable_argsort ks in
  let uniq := std_unique (fun a b => near eps (nth a ks 0%Qc) (nth b ks 0%Qc)) arg in
  match multiplicities uniq arg with
  | None => None
  | Some ms => Some (insert_groups ks uniq ms arg st (repeat None (length ks)))
  end.

Inductive insert_result := Raises | Undefined | Inserted (st : St) (flags : list (option bool)).

(** splinepy/bspline.py 75-123; [kv] are the knots of the requested axis. *)
Definition qmax_list (l : list Qc) : Qc := fold_right (fun x m => if qleb m x then x else m) (hd 0%Qc l) l.
Definition qmin_list (l : list Qc) : Qc := fold_right (fun x m => if qleb x m then x else m) (hd 0%Qc l) l.
Definition insert_knots (eps : Qc) (st : St) (kv ks : list Qc) : insert_result :=
  match ks with
  | [] => Inserted st []
  | _ =>
      if qltb (qmax_list kv) (qmax_list ks) then Raises
      else if qltb (qmin_list ks) (qmin_list kv) then Raises
      else match insert_knots_core eps st ks with
           | None => Undefined
           | Some (st, flags) => Inserted st flags
           end
  end.
End Insert.
Arguments Raises {St}. Arguments Undefined {St}. Arguments Inserted {St}.

(** bspline.py 162-171: np.diff / (n+1), outer product with 1..n, plus the left
    ends, row by row. *)
Fixpoint determine_new_knots (kv_unique : list Qc) (n : nat) : list Qc :=
  match n with
  | O => []
  | _ =>
      match kv_unique with
      | a :: (b :: _) as r =>
          map (fun j => ((b - a) / inj (n + 1) * inj j + a)%Qc) (seq 1 n) ++ determine_new_knots r n
      | _ => []
      end
  end.

(** scalar_type_wrapper.hpp 240-269 around a library insertion [ins] that
    returns the new knots: nothing outside the open bounds. *)
Definition guarded_insert (ins : list Qc -> Qc -> nat -> list Qc) (p : nat)
    (kv : list Qc) (x : Qc) (m : nat) : list Qc * nat :=
  let n := length kv - p - 1 in
  if (qleb x (kn kv p) || qleb (kn kv n) x)%bool then (kv, 0)
  else let kv' := ins kv x m in (kv', length kv' - length kv).

(** bspline.py 125-180: one entry of the loop, for the knot vector of one axis.
    epsk: tolerance of unique_knots, epsd: tolerance of the request grouping. *)
Definition refine_axis (ins : list Qc -> Qc -> nat -> list Qc) (epsk epsd : Qc) (p : nat)
    (kv : list Qc) (n : nat) : @insert_result (list Qc) :=
  insert_knots (guarded_insert ins p) epsd kv kv (determine_new_knots (unique_knots epsk p kv) n).

(** The loop: para_dims may repeat; unique knots are recomputed each time. *)
Fixpoint refine_loop ins epsk epsd (axes : list (nat * list Qc)) (todo : list (nat * nat))
  : option (list (nat * list Qc)) :=
  match todo with
  | [] => Some axes
  | (k, n) :: todo =>
      match nth_error axes k with
      | None => None
      | Some (p, kv) =>
          match refine_axis ins epsk epsd p kv n with
          | Inserted kv' _ => refine_loop ins epsk epsd (set_nth axes k (p, kv')) todo
          | _ => None
          end
      end
  end.
(** Arguments of uniform_refine after the defaults were filled in (142-160). *)
Definition uniform_refine ins epsk epsd axes (para_dims n_knots : list nat) :=
  if length n_knots =? length para_dims
  then refine_loop ins epsk epsd axes (combine para_dims n_knots) else None.

(** properties.hpp 103-159.  Degree 0 divides by zero: [None]. *)
Definition greville_raw (a : paxis) : list Qc :=
  match a with
  | BezierAxis p => map (fun j => (/ inj p * inj j)%Qc) (seq 0 (p + 1))
  | KnotAxis p kv =>
      map (fun j => (/ inj p * fold_left (fun f k => f + kn kv (k + j + 1))%Qc (seq 0 p) 0)%Qc)
          (seq 0 (length kv - p - 1))
  end.
(** 137-156 *)
Fixpoint greville_filter (tol : Qc) (g : list Qc) (previous : Qc) (js : list nat) : list Qc :=
  match js with
  | [] => g
  | j :: js =>
      if qltb (qabs (previous - nth j g 0)%Qc) tol then
        let g := set_nth g (j - 1) (qc 1 2 * (nth (j - 2) g 0 + nth (j - 1) g 0))%Qc in
        let g := set_nth g j (qc 1 2 * (nth j g 0 + nth (j + 1) g 0))%Qc in
        greville_filter tol g previous js
      else greville_filter tol g (nth j g 0%Qc) js
  end.
Definition greville (a : paxis) (tol : Qc) : option (list Qc) :=
  if ax_degree a =? 0 then None
  else
    let g := greville_raw a in
    match a with
    | BezierAxis _ => Some g
    | KnotAxis _ _ =>
        if qltb 0 tol then Some (greville_filter tol g (nth 1 g 0%Qc) (seq 2 (length g - 3)))
        else Some g
    end.

(** bspline.py 325-345: KnotVector.scale(0, 1). *)
Definition scale01 (kv : list Qc) : list Qc :=
  map (fun x => ((x - kn kv 0) / (kn kv (length kv - 1) - kn kv 0))%Qc) kv.
Definition normalize_axis (a : paxis) : paxis :=
  match a with BezierAxis p => BezierAxis p | KnotAxis p kv => KnotAxis p (scale01 kv) end.
Definition normalize_knot_vectors (s : spline) : spline :=
  Spl (map normalize_axis (sp_axes s)) (sp_cps s) (sp_weights s).
