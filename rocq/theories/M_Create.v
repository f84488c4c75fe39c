(** Model of splinepy/helpme/create.py: embedded, extruded, revolved, line, box,
    from_bounds and arc.

    A spline is its core; the class is the one whose properties the core has.
    What is handed to the constructor is modelled as [inputs] of M_Core, [None]
    stands for an exception before the constructor is called.  Numbers are exact;
    cos, sin, np.linalg.norm and pi are oracles.  gustaf's
    rotation_matrix_around_axis is not part of the repository: it is the oracle
    [o_rotation]. *)
From Coq Require Import List Arith ZArith Bool QArith Qcanon Qround.
From Verif Require Import Base BaseQc S_Value M_Core M_Files M_Bezier M_Elevate.
Import ListNotations.
Local Open Scope list_scope.
Local Open Scope nat_scope.

(** Rows of arrays. *)
Definition row_add (p v : list Qc) : list Qc := map (fun ab => (fst ab + snd ab)%Qc) (combine p v).
Definition row_sub (p v : list Qc) : list Qc := map (fun ab => (fst ab - snd ab)%Qc) (combine p v).
Definition row_scale (c : Qc) (p : list Qc) : list Qc := map (fun x => (c * x)%Qc) p.
Definition dot (p q : list Qc) : Qc := qsum (map (fun ab => (fst ab * snd ab)%Qc) (combine p q)).
(** np.hstack with np.zeros *)
Definition zero_padded (n : nat) (p : list Qc) : list Qc := p ++ repeat 0%Qc (n - length p).

(** type(spline)(...), M_Core; [None] = exception *)
Definition make (limit : nat) (s : spline) (i : inputs) : option spline :=
  match construct limit (name_of s) i with
  | Done st => s_core st
  | Raised _ => None
  end.
(** todict() with other control points *)
Definition with_points (s : spline) (cps : list (list Qc)) : inputs :=
  Inputs (Some (core_degrees s)) (if has_kvs s then Some (core_kvs s) else None) (Some cps) (sp_weights s).

(** embedded, 11-54 *)
Definition embedded (s : spline) (n : Z) : option inputs :=
  if (n <? 1)%Z then None
  else
    let n := Z.to_nat n in
    let dim := dim_of (sp_cps s) in
    Some (with_points s
      (if n <? dim then map (firstn n) (sp_cps s)
       else if dim <? n then map (fun p => zero_padded n (firstn n p)) (sp_cps s)
       else sp_cps s)).

(** extruded, 57-125 *)
Definition extruded (s : spline) (v : list Qc) : option inputs :=
  let dim := dim_of (sp_cps s) in
  if length v <? dim then None
  else
    let cps := if dim =? length v then sp_cps s else map (zero_padded (length v)) (sp_cps s) in
    Some (Inputs
      (Some (core_degrees s ++ [1%Z]))
      (if has_kvs s then Some (core_kvs s ++ [[0; 0; 1; 1]%Qc]) else None)
      (Some (cps ++ map (fun p => row_add p v) cps))
      (option_map (fun w => w ++ w) (sp_weights s))).

(** Oracles. *)
Record oracles := Oracles
  { o_cos : Qc -> Qc; o_sin : Qc -> Qc; o_pi : Qc;
    o_norm : list Qc -> Qc;
    o_rotation : option (list Qc) -> Qc -> list (list Qc);
    o_tolerance : Qc }.

(** 246-270: the loop over the segments.  [rot]: one row times the transposed
    rotation matrix; [push]: moving the mid point away from the axis. *)
Fixpoint segments (rot push : list Qc -> list Qc) (n : nat) (end_points : list (list Qc)) : list (list Qc) :=
  match n with
  | 0 => []
  | S n =>
      let mid_points := map rot end_points in
      let end_points := map rot mid_points in
      map push mid_points ++ end_points ++ segments rot push n end_points
  end.
(** 273-275 *)
Definition revolved_knots (n : nat) : list Qc :=
  [0; 0; 0]%Qc ++ flat_map (fun i => [inj (i + 1); inj (i + 1)]) (seq 0 (n - 1)) ++ repeat (inj n) 3.

Section Revolve.
Variable O : oracles.

(** 160-199: control points of the problem dimension and unit axis. *)
Definition revolve_points (s : spline) (axis : option (list Qc)) : option (list (list Qc) * option (list Qc)) :=
  let dim := dim_of (sp_cps s) in
  match axis with
  | Some axis =>
      if length axis <? dim then None
      else
        let cps := if dim <? length axis then map (zero_padded (length axis)) (sp_cps s) else sp_cps s in
        let norm := o_norm O axis in
        if qleb (qabs norm) (o_tolerance O) then None
        else Some (cps, if length axis =? 2 then None else Some (row_scale (1 / norm)%Qc axis))
  | None => if dim =? 3 then None else Some (sp_cps s, None)
  end.
(** 202-207 *)
Definition revolve_angle (angle : option Qc) (degree : bool) : Qc :=
  let angle := match angle with
               | Some a => a
               | None => if degree then inj 360 else (o_pi O * inj 2)%Qc
               end in
  if degree then (angle * (o_pi O / inj 180))%Qc else angle.
(** 229-234 *)
Definition minimum_spans (angle : Qc) : Z :=
  Qceiling (this ((qabs angle + qabs (o_tolerance O)) / o_pi O)%Qc).
Definition spans (angle : Qc) (n : option Z) : Z :=
  match n with
  | None => minimum_spans angle
  | Some n => if (n <? minimum_spans angle)%Z then minimum_spans angle else n
  end.
Definition rotate_row (m : list (list Qc)) (p : list Qc) : list Qc := map (fun r => dot r p) m.
(** 261-266 *)
Definition push_row (axis : option (list Qc)) (factor : Qc) (p : list Qc) : list Qc :=
  match axis with
  | Some axis => let mp := row_scale (dot p axis) axis in row_add (row_scale factor (row_sub p mp)) mp
  | None => row_scale factor p
  end.

(** revolved, 128-298 *)
Definition revolved (s : spline) (axis center : option (list Qc)) (angle : option Qc) (n_knot_spans : option Z)
  (degree : bool) : option inputs :=
  match revolve_points s axis with
  | None => None
  | Some (cps, axis) =>
      let dim := dim_of cps in
      let angle := revolve_angle angle degree in
      if match center with Some c => negb (dim =? length c) | None => false end then None
      else
        let cps := match center with Some c => map (fun p => row_sub p c) cps | None => cps end in
        if negb ((dim =? 2) || (dim =? 3)) then None
        else
          let n := spans angle n_knot_spans in
          if negb (has_kvs s) && (1 <? n)%Z then None
          else
            let rot_a := (angle / (inj 2 * zq n))%Qc in
            let weight := o_sin O (o_pi O / inj 2 - rot_a)%Qc in
            let factor := (1 / weight)%Qc in
            let rot := rotate_row (o_rotation O axis rot_a) in
            let points := cps ++ segments rot (push_row axis factor) (Z.to_nat n) cps in
            Some (Inputs
              (Some (core_degrees s ++ [2%Z]))
              (if has_kvs s then Some (core_kvs s ++ [revolved_knots (Z.to_nat n)]) else None)
              (Some (match center with Some c => map (fun p => row_add p c) points | None => points end))
              (option_map (fun w => w ++ concat (repeat (row_scale weight w ++ w) (Z.to_nat n))) (sp_weights s)))
  end.
End Revolve.

(** line, 568-599.  np.linspace(0, 1, n) of exact numbers. *)
Definition linspace01 (n : nat) : list Qc :=
  map (fun i => (inj i / inj (n - 1))%Qc) (seq 0 n).
Definition line (points : list (list Qc)) : inputs :=
  Inputs (Some [1%Z]) (Some [[0%Qc] ++ linspace01 (length points) ++ [1%Qc]]) (Some points) None.
Definition make_line (limit : nat) (points : list (list Qc)) : option spline :=
  match construct limit CBSpline (line points) with Done st => s_core st | Raised _ => None end.

(** box, 675-695.  No lengths: IndexError. *)
Fixpoint box_from (limit : nat) (i : nat) (s : spline) (lengths : list Qc) : option spline :=
  match lengths with
  | [] => Some s
  | l :: lengths =>
      match extruded s (repeat 0%Qc (i + 1) ++ [l]) with
      | None => None
      | Some inp =>
          match make limit s inp with
          | None => None
          | Some s => box_from limit (i + 1) s lengths
          end
      end
  end.
Definition box (limit : nat) (lengths : list Qc) : option spline :=
  match lengths with
  | [] => None
  | l :: lengths =>
      match construct limit CBezier (Inputs (Some [1%Z]) None (Some [[0%Qc]; [l]]) None) with
      | Done st => match s_core st with Some s => box_from limit 0 s lengths | None => None end
      | Raised _ => None
      end
  end.

(** from_bounds, 301-336.  .bspline: bezier.py 374-378.  Fewer parametric than
    physical bounds: IndexError; surplus ones are not read. *)
Fixpoint rescaled (kvs : list (list Qc)) (lo hi : list Qc) : option (list (list Qc)) :=
  match kvs, lo, hi with
  | [], _, _ => Some []
  | kv :: kvs, a :: lo, b :: hi =>
      option_map (cons (map (fun x => (x * (b - a) + a)%Qc) kv)) (rescaled kvs lo hi)
  | _, _, _ => None
  end.
Definition from_bounds (limit : nat) (para_lo para_hi phys_lo phys_hi : list Qc) : option spline :=
  match box limit (row_sub phys_hi phys_lo) with
  | None => None
  | Some b =>
      let axes := map with_knots (sp_axes b) in
      let s := Spl axes (map (fun p => row_add p phys_lo) (sp_cps b)) None in
      match rescaled (core_kvs s) para_lo para_hi with
      | None => None
      | Some kvs => make limit s (Inputs (Some (core_degrees s)) (Some kvs) (Some (sp_cps s)) None)
      end
  end.

(** arc, 602-655: the first parametric dimension is removed from the revolved
    point. *)
Definition arc (O : oracles) (limit : nat) (radius angle : Qc) (n_knot_spans : Z) (start_angle : Qc) (degree : bool)
  : option spline :=
  let radians a := if degree then (a * (o_pi O / inj 180))%Qc else a in
  let start_angle := radians start_angle in
  let angle := radians angle in
  let bezier := Spl [BezierAxis 0]
                  [[(radius * o_cos O start_angle)%Qc; (radius * o_sin O start_angle)%Qc]] (Some [1%Qc]) in
  let point :=
    if qleb (o_pi O) (qabs angle) || (1 <? n_knot_spans)%Z
    then Spl (map with_knots (sp_axes bezier)) (sp_cps bezier) (sp_weights bezier) else bezier in
  match revolved O point None None (Some angle) (Some n_knot_spans) false with
  | None => None
  | Some i =>
      match make limit point i with
      | None => None
      | Some r =>
          make limit point
            (Inputs (Some (tl (core_degrees r))) (if has_kvs point then Some (tl (core_kvs r)) else None)
               (Some (sp_cps r)) (sp_weights r))
      end
  end.
