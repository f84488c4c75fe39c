(** Model of splinepy/helpme/integrate.py (volume, parametric_function) and of
    parametric_view of splinepy/helpme/create.py.

    Numbers are exact.  Oracles: numpy's leggauss and sqrt, BSplineLib's knot
    insertion (Spline.insert_knots) and the knots BSplineLib adds before the
    Bezier patches are cut out (extract.hpp 246-262).  jacobian is BSplineLib
    code: the derivatives of S_Deriv.  np.linalg.det is the determinant (det of S_Deriv).  The
    integrand is called with arrays of points; it is modelled as a function of
    one point that returns a row.  Arguments of other types (NotImplementedError)
    are not modelled. *)
From Coq Require Import List Arith ZArith Bool QArith Qcanon.
From Verif Require Import Base BaseQc S_Value S_Deriv M_Grid M_Core M_Knots M_Bezier M_Pieces M_Create.
Import ListNotations.
Local Open Scope list_scope.
Local Open Scope nat_scope.

Record int_oracles := IntOracles
  { g_leggauss : nat -> list Qc * list Qc;
    g_sqrt : Qc -> Qc;
    g_insert : spline -> nat -> list Qc -> option spline;
    g_required : spline -> spline }.

Section Oracles.
Variable O : int_oracles.

(** _get_integral_measure, 8-52: by dimensions of [s]; [None] = ValueError *)
Definition integral_measure (s : spline) : option (spline -> list Qc -> Qc) :=
  let para_dim := length (sp_axes s) in
  let dim := dim_of (sp_cps s) in
  if dim =? para_dim then Some (fun b u => det para_dim (fun i j => sp_deriv b j u i))
  else if para_dim <? dim then
    Some (fun b u => g_sqrt O (det para_dim (fun i k =>
            qsum (map (fun j => (sp_deriv b i u j * sp_deriv b k u j)%Qc) (seq 0 dim)))))
  else None.

(** 92-110; [None] = ValueError, here or in leggauss *)
Definition quad_orders (s : spline) (orders : option (list Z)) : option (list nat) :=
  let para_dim := length (sp_axes s) in
  match orders with
  | None =>
      Some (map (fun a => let expected := ax_degree a * para_dim + 1 + match sp_weights s with Some _ => 2 | None => 0 end in
                          (expected + 1 + 1) / 2)
                (sp_axes s))
  | Some os =>
      if (length os =? para_dim) && forallb (fun o => (0 <? o)%Z) os then Some (map Z.to_nat os) else None
  end.

(** 112-121 *)
Definition quadrature (s : spline) (orders : option (list Z)) : option (list (list Qc * Qc)) :=
  match quad_orders s orders with
  | None => None
  | Some os =>
      match cartesian_product (map (fun o => map (fun x => x * qc 1 2 + qc 1 2)%Qc (fst (g_leggauss O o))) os) true,
            cartesian_product (map (fun o => map (fun w => w * qc 1 2)%Qc (snd (g_leggauss O o))) os) true with
      | Some positions, Some weights =>
          Some (combine positions (map (fun r => fold_right Qcmult 1%Qc r) weights))
      | _, _ => None
      end
  end.

(** spline.extract.beziers of a spline with knot vectors, extract.py 716-718 *)
Definition beziers (eps : Qc) (s : spline) : option (list spline) := bezier_pieces eps (g_required O s).

(** volume, 124-160 *)
Definition volume (eps : Qc) (s : spline) (orders : option (list Z)) : option Qc :=
  match integral_measure s, quadrature s orders with
  | Some meas, Some quad =>
      let sum b := qsum (map (fun tw => (meas b (fst tw) * snd tw)%Qc) quad) in
      if has_knot_vectors s then option_map (fun bs => qsum (map sum bs)) (beziers eps s) else Some (sum s)
  | _, _ => None
  end.

(** parametric_view, create.py 458-565, conform=False and without its options
    for plots. *)
Definition parametric_view (limit : nat) (eps : Qc) (s : spline) : option spline :=
  let lo := map ax_lower (sp_axes s) in
  let hi := map ax_upper (sp_axes s) in
  match from_bounds limit lo hi lo hi with
  | None => None
  | Some v =>
      if has_knot_vectors s then
        fold_left (fun v iq => match v with
                               | None => None
                               | Some v => match snd iq with [] => Some v | q => g_insert O v (fst iq) q end
                               end)
          (combine (seq 0 (length (sp_axes s)))
                   (map (fun a => removelast (tl (axis_unique eps a))) (sp_axes s)))
          (Some v)
      else Some v
  end.

(** parametric_function, 163-217 *)
Definition parametric_function (limit : nat) (eps : Qc) (s : spline) (f : list Qc -> list Qc) (orders : option (list Z))
  : option (list Qc) :=
  match integral_measure s, quadrature s orders with
  | Some meas, Some quad =>
      let width := match quad with tw :: _ => length (f (fst tw)) | [] => 0 end in
      if has_knot_vectors s then
        match parametric_view limit eps s with
        | None => None
        | Some v =>
            match beziers eps v with
            | None => None
            | Some bs =>
                Some (map (fun d =>
                  qsum (map (fun b =>
                    qsum (map (fun tw =>
                      let q := map (sp_value b (fst tw)) (seq 0 (dim_of (sp_cps b))) in
                      (nth d (f q) 0 * meas s q * snd tw)%Qc) quad)) bs)) (seq 0 width))
            end
        end
      else
        Some (map (fun d => qsum (map (fun tw => (nth d (f (fst tw)) 0 * meas s (fst tw) * snd tw)%Qc) quad)) (seq 0 width))
  | _, _ => None
  end.
End Oracles.
