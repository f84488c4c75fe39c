(** Model of splinepy/helpme/fit.py.

    Numbers are exact.  np.linalg.norm, np.sqrt, scipy's spsolve and numpy's
    lstsq are oracles.  basis_and_support and make_matrix (utils/data.py 399-446)
    give the matrix of the basis functions of S_Value; evaluation is BSplineLib
    code.  A parameter that is not a number (0 / 0) is [None].

    Not modelled: given splines whose control points have another dimension than
    the fitting points; points with one coordinate in the presence of scipy
    (spsolve then returns a flat array); one control point with interpolated end
    points; one query for two control points. *)
From Coq Require Import List Arith ZArith Bool QArith Qcanon Qround.
From Verif Require Import Base BaseQc S_Value M_Core M_Create.
Import ListNotations.
Local Open Scope list_scope.
Local Open Scope nat_scope.

Notation mat := (list (list Qc)).

Record fit_oracles := FitOracles
  { f_norm : list Qc -> Qc; f_sqrt : Qc -> Qc;
    f_spsolve : mat -> mat -> mat; f_lstsq : mat -> mat -> mat }.

(** Arrays: rows; a @ b for b with n columns; a.transpose() of m columns. *)
Definition mat_mul (n : nat) (a b : mat) : mat :=
  map (fun r => map (fun j => qsum (map (fun k => (nth k r 0 * nth j (nth k b []) 0)%Qc) (seq 0 (length b))))
                    (seq 0 n)) a.
Definition transposed (m : nat) (a : mat) : mat := map (fun j => map (fun r => nth j r 0%Qc) a) (seq 0 m).
(** x[1:-1] *)
Definition inner {A} (l : list A) : list A := removelast (tl l).

Section Fit.
Variable O : fit_oracles.

(** parametrize_to_line, 41-47: chord lengths along one line of points. *)
Fixpoint chords (centripetal : bool) (line : mat) : list Qc :=
  match line with
  | p :: ((q :: _) as rest) =>
      let l := f_norm O (row_sub q p) in
      (if centripetal then f_sqrt O l else l) :: chords centripetal rest
  | _ => []
  end.
(** np.cumsum *)
Fixpoint cumsum (acc : Qc) (l : list Qc) : list Qc :=
  match l with [] => [] | x :: l => (acc + x)%Qc :: cumsum (acc + x)%Qc l end.
(** 49-60: cumulated chord lengths relative to the total. *)
Definition line_parameters (centripetal : bool) (line : mat) : list (option Qc) :=
  let c := chords centripetal line in
  if qeqb (qsum c) 0 then map (fun _ => None) c
  else map Some (cumsum 0 (map (fun x => (x / qsum c)%Qc) c)).
(** 58-75: mean over all lines of an axis (one line is its own mean); [None] is
    the IndexError for no points. *)
Definition axis_parameters (centripetal : bool) (n : nat) (lines : list mat) : option (list (option Qc)) :=
  let ps := map (line_parameters centripetal) lines in
  let mean i :=
    match ps, all_some (map (fun l => nth i l None) ps) with
    | [], _ | _, None => None
    | _, Some xs => Some (qsum xs / inj (length xs))%Qc
    end in
  if n =? 0 then None
  else Some (set_nth (set_nth (None :: map mean (seq 0 (n - 1))) 0 (Some 0%Qc)) (n - 1) (Some 1%Qc)).

(** compute_knot_vector, 89-139, for degree < n_control_points.  [None]:
    np.convolve refuses an empty filter, an index is out of range. *)
Definition blended (u : list Qc) (x : Qc) : option Qc :=
  let i := Z.to_nat (Qfloor (this x)) in
  let alpha := (x - inj i)%Qc in
  match nth_error u (i - 1), nth_error u i with
  | Some a, Some b => Some ((1 - alpha) * a + alpha * b)%Qc
  | _, _ => None
  end.
Definition compute_knot_vector (p n : nat) (u : list Qc) (n_fitting : nat) : option (list Qc) :=
  match (if n_fitting =? n then
           if p =? 0 then None
           else Some (inner (map (fun i => (qsum (firstn p (skipn i u)) / inj p)%Qc) (seq 0 (length u - p + 1))))
         else all_some (map (fun j => blended u (inj j * (inj n_fitting / inj (n - p)))%Qc) (seq 1 (n - p - 1)))) with
  | None => None
  | Some interior => Some (repeat 0%Qc (p + 1) ++ interior ++ repeat 1%Qc (p + 1))
  end.

(** _validate_specifications, 231-277; [None] = ValueError. *)
Definition validated (n_query : nat) (degree n_cp : option Z) (kv : option (list Qc)) : option (Z * Z) :=
  let n_cp := match degree, kv with
              | Some d, Some kv => Some (Z.of_nat (length kv) - d - 1)%Z
              | _, _ => n_cp
              end in
  let degree := match kv, n_cp with
                | Some kv, Some n => Some (Z.of_nat (length kv) - n - 1)%Z
                | _, _ => degree
                end in
  match degree with
  | None => None
  | Some d =>
      let n := match n_cp with Some n => n | None => Z.of_nat n_query end in
      if (n <=? d)%Z then None else if (Z.of_nat n_query <? n)%Z then None else Some (d, n)
  end.

(** _prepare_default_bspline1pd, 280-302.  The contents of np.empty are never
    read: zeros.  A negative degree is refused by the constructor at the latest. *)
Definition default_spline (limit n_query dim : nat) (degree n_cp : option Z) (kv : option (list Qc)) (u : list Qc)
  : option spline :=
  match validated n_query degree n_cp kv with
  | None => None
  | Some (d, n) =>
      if (d <? 0)%Z then None
      else
        match compute_knot_vector (Z.to_nat d) (Z.to_nat n) u n_query with
        | None => None
        | Some k =>
            match construct limit CBSpline
                    (Inputs (Some [d]) (Some [k]) (Some (repeat (repeat 0%Qc dim) (Z.to_nat n))) None) with
            | Done st => s_core st
            | Raised _ => None
            end
        end
  end.

(** Basis functions of a spline with one parametric dimension: rational ones
    contain the weights.  164-167: one row for each query. *)
Definition basis_value (s : spline) (u : Qc) (i : nat) : Qc :=
  match sp_axes s, sp_weights s with
  | a :: _, None => ax_fun a u i
  | a :: _, Some ws =>
      (nth i ws 0 * ax_fun a u i / qsum (map (fun j => nth j ws 0 * ax_fun a u j) (seq 0 (ax_n a))))%Qc
  | [], _ => 0%Qc
  end.
Definition coefficient_matrix (s : spline) (us : list Qc) : mat :=
  map (fun u => map (basis_value s u) (seq 0 (length (sp_cps s)))) us.

(** 196-199, 209-211, 214-223: the system for the unknown rows. *)
Definition solved (scipy : bool) (dim m : nat) (a rhs : mat) : mat :=
  if scipy then let at_ := transposed m a in f_spsolve O (mat_mul m at_ a) (mat_mul dim at_ rhs)
  else f_lstsq O a rhs.

(** solve_for_control_points, 142-228: control points and residual; [None] =
    exception. *)
Definition fitted_points (scipy : bool) (s : spline) (pts : mat) (us : list Qc) (ends : bool) : option mat :=
  let n := length (sp_cps s) in
  let dim := dim_of pts in
  let a := coefficient_matrix s us in
  let first := hd [] pts in
  let final := last pts [] in
  if negb (length us =? length pts) then None
  else if ends && negb (n =? length pts) then
    if n =? 2 then Some [first; final]                                       (* 181-186 *)
    else if n <? 2 then None
    else
      let rhs := map (fun ap => row_sub (snd ap)
                   (row_add (row_scale (hd 0%Qc (fst ap)) first) (row_scale (last (fst ap) 0%Qc) final)))
                   (combine (inner a) (inner pts)) in
      Some (first :: solved scipy dim (n - 2) (map inner (inner a)) rhs ++ [final])
  else Some (solved scipy dim n a pts).
Definition residual (s : spline) (pts : mat) (us : list Qc) (cps : mat) : Qc :=
  f_norm O (concat (map (fun rp => row_sub (fst rp) (snd rp))
    (combine (mat_mul (dim_of pts) (coefficient_matrix s us) cps) pts))).
Definition with_cps (s : spline) (cps : mat) : spline := Spl (sp_axes s) cps (sp_weights s).

(** Outcome: a spline with the residual, an exception, or NaN among the
    parameters. *)
Inductive fit := Fitted (s : spline) (residual : Qc) | Refused | Undefined.

(** curve, 341-408, once the fitting spline and the queries are there *)
Definition fit_spline (scipy : bool) (s : spline) (pts : mat) (us : list Qc) (ends : bool) : fit :=
  if negb (length (sp_axes s) =? 1) then Refused
  else
    match fitted_points scipy s pts us ends with
    | None => Refused
    | Some cps => Fitted (with_cps s cps) (residual s pts us cps)
    end.

(** curve, 305-408 *)
Definition curve (limit : nat) (scipy : bool) (pts : mat) (degree n_cp : option Z) (kv : option (list Qc))
    (given : option spline) (queries : option (list Qc)) (centripetal ends : bool) : fit :=
  match match queries with
        | Some q => Some (map Some q)
        | None => axis_parameters centripetal (length pts) [pts]
        end with
  | None => Refused
  | Some us =>
      match all_some us with
      | None => Undefined
      | Some us =>
          match given with
          | Some s => fit_spline scipy s pts us ends
          | None =>
              match default_spline limit (length pts) (dim_of pts) degree n_cp kv us with
              | None => Refused
              | Some s => fit_spline scipy s pts us ends
              end
          end
      end
  end.

(** surface, 539-571: both loops fit line after line, each starting from the
    spline of the previous fit. *)
Fixpoint fit_lines (scipy : bool) (s : spline) (lines : list mat) (us : list Qc) (ends : bool)
  : option (list mat) :=
  match lines with
  | [] => Some []
  | l :: lines =>
      match fit_spline scipy s l us ends with
      | Fitted s _ => option_map (cons (sp_cps s)) (fit_lines scipy s lines us ends)
      | _ => None
      end
  end.
(** Lines of a net stored first axis fastest. *)
Definition lines_u (n0 n1 : nat) (pts : mat) : list mat :=
  map (fun j => map (fun i => nth (i + n0 * j) pts []) (seq 0 n0)) (seq 0 n1).
Definition lines_v (n0 n1 : nat) (pts : mat) : list mat :=
  map (fun i => map (fun j => nth (i + n0 * j) pts []) (seq 0 n1)) (seq 0 n0).
(** 532-576: fit along u, then the interim control points along v. *)
Definition surface_points (scipy : bool) (su sv : spline) (size0 size1 : nat) (pts : mat) (us vs : list Qc) (ends : bool)
  : option mat :=
  let n0 := length (sp_cps su) in
  let n1 := length (sp_cps sv) in
  match fit_lines scipy su (lines_u size0 size1 pts) us ends with
  | None => None
  | Some cols =>
      option_map (fun rows => concat (lines_v n1 n0 (concat rows)))
        (fit_lines scipy sv (lines_v n0 size1 (concat cols)) vs ends)
  end.
(** Rows by id. *)
Definition at_ids {A} (d : A) (l : list A) (ids : list nat) : list A := map (fun i => nth i l d) ids.
(** 520-528: extract.boundaries([2, 0]) of a surface: its first row and its
    first column of control points. *)
Definition row_of (s : spline) : option (spline * spline) :=
  match sp_axes s with
  | [a; b] =>
      let ids0 := seq 0 (ax_n a) in
      let ids1 := map (Nat.mul (ax_n a)) (seq 0 (ax_n b)) in
      Some (Spl [a] (at_ids [] (sp_cps s) ids0) (option_map (fun w => at_ids 0%Qc w ids0) (sp_weights s)),
            Spl [b] (at_ids [] (sp_cps s) ids1) (option_map (fun w => at_ids 0%Qc w ids1) (sp_weights s)))
  | _ => None
  end.
(** surface, 411-591, for the splines of both directions and the queries. *)
Definition fit_surface (scipy : bool) (s su sv : spline) (size0 size1 : nat) (pts : mat) (us vs : list Qc) (ends : bool)
  : option spline :=
  option_map (with_cps s) (surface_points scipy su sv size0 size1 pts us vs ends).
Definition surface (limit : nat) (scipy : bool) (pts : mat) (size0 size1 : nat) (degrees n_cps : option Z * option Z)
    (kvs : option (option (list Qc) * option (list Qc))) (given : option spline) (queries : option (list Qc * list Qc))
    (centripetal ends : bool) : option spline :=
  let used := match kvs, given with None, None => None | _, _ => queries end in        (* 464-466 *)
  match match used with
        | Some (q0, q1) => (Some (map Some q0), Some (map Some q1))
        | None => (axis_parameters centripetal size0 (lines_u size0 size1 pts),
                   axis_parameters centripetal size1 (lines_v size0 size1 pts))
        end with
  | (Some us, Some vs) =>
      match all_some us, all_some vs with
      | Some us, Some vs =>
          match given with
          | Some s =>
              match row_of s with
              | Some (su, sv) => fit_surface scipy s su sv size0 size1 pts us vs ends
              | None => None
              end
          | None =>
              let kv0 := match kvs with Some kvs => fst kvs | None => None end in
              let kv1 := match kvs with Some kvs => snd kvs | None => None end in
              match default_spline limit size0 (dim_of pts) (fst degrees) (fst n_cps) kv0 us,
                    default_spline limit size1 (dim_of pts) (snd degrees) (snd n_cps) kv1 vs with
              | Some su, Some sv =>                                                     (* 513-517 *)
                  match construct limit CBSpline
                          (Inputs (Some (core_degrees su ++ core_degrees sv)) (Some (core_kvs su ++ core_kvs sv))
                             (Some (repeat (repeat 0%Qc (dim_of pts)) (length (sp_cps su) * length (sp_cps sv)))) None) with
                  | Done st => match s_core st with
                               | Some s => fit_surface scipy s su sv size0 size1 pts us vs ends
                               | None => None
                               end
                  | Raised _ => None
                  end
              | _, _ => None
              end
          end
      | _, _ => None
      end
  | _ => None
  end.
End Fit.
