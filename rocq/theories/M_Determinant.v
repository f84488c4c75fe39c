(** Model of determinant_spline of splinepy/helpme/create.py, 339-455.

    Numbers are exact.  Oracle: the linear solver (scipy's spsolve or numpy's
    solve).  jacobian and the basis functions are BSplineLib code: those of
    S_Deriv and S_Value; np.linalg.det is the determinant.  The warning about
    rational splines with unequal weights has no effect on the result and is not
    modelled, nor are zero para_dim (no spline has it) and axes of Bezier and
    B-spline type in one spline. *)
From Coq Require Import List Arith ZArith Bool QArith Qcanon.
From Verif Require Import Base BaseQc S_Value S_Deriv M_Grid M_Core M_Knots M_Bezier.
Import ListNotations.
Local Open Scope list_scope.
Local Open Scope nat_scope.

(** A spline, an exception, or NaN among the samples. *)
Inductive det_result := Determinant (s : spline) | DetRaised | DetNaN.

(** 404: degrees of the determinant, -1 for degree 0 *)
Definition det_degree (dim : nat) (a : paxis) : Z := (Z.of_nat (ax_degree a) * Z.of_nat dim - 1)%Z.

(** 423: kn_m[1:-1] += 1 *)
Definition bumped (m : list nat) : list nat :=
  match m with
  | [] => []
  | k :: m => k :: match m with [] => [] | _ => map S (removelast m) ++ [last m 0] end
  end.
(** 406, 412-425; np.repeat raises when the numbers of knots and multiplicities
    differ or when a multiplicity is negative *)
Definition det_knots (eps : Qc) (dim : nat) (a : paxis) : option (list Qc) :=
  let us := axis_unique eps a in
  let ms := map (fun k => (Z.of_nat k + (det_degree dim a - Z.of_nat (ax_degree a)))%Z)
                (bumped (axis_multiplicities eps a)) in
  if (length us =? length ms) && forallb (fun k => (0 <=? k)%Z) ms
  then Some (flat_map (fun um => repeat (fst um) (Z.to_nat (snd um))) (combine us ms)) else None.

(** 409-443: the spline to be filled; np.empty (zeros here) has one row for each
    control point, 428-435, 445; a negative number of rows raises *)
Definition det_template (limit : nat) (eps : Qc) (s : spline) : option spline :=
  let dim := dim_of (sp_cps s) in
  let degs := map (det_degree dim) (sp_axes s) in
  let made c i := match construct limit c i with Done st => s_core st | Raised _ => None end in
  let rows n := if (n <? 0)%Z then None else Some (repeat [0%Qc] (Z.to_nat n)) in
  if has_knot_vectors s then
    match all_some (map (det_knots eps dim) (sp_axes s)) with
    | None => None
    | Some kvs =>
        match rows (fold_right Z.mul 1 (map (fun kd => Z.of_nat (length (fst kd)) - snd kd - 1) (combine kvs degs)))%Z with
        | None => None
        | Some cps => made CBSpline (Inputs (Some degs) (Some kvs) (Some cps) None)
        end
    end
  else
    match rows (fold_right Z.mul 1 (map (fun d => d + 1) degs))%Z with
    | None => None
    | Some cps => made CBezier (Inputs (Some degs) None (Some cps) None)
    end.

(** basis_and_support and make_matrix (utils/data.py 399-446): one row, first axis
    fastest *)
Fixpoint basis_row (axes : list paxis) (u : list Qc) : list Qc :=
  match axes, u with
  | a :: axes, x :: u => flat_map (fun b => map (fun i => (ax_fun a x i * b)%Qc) (seq 0 (ax_n a))) (basis_row axes u)
  | _, _ => [1%Qc]
  end.

(** 380-455 *)
Definition determinant_spline (solve : list (list Qc) -> list Qc -> list Qc) (limit : nat) (eps tol : Qc) (s : spline)
  : det_result :=
  let n := length (sp_axes s) in
  if negb (dim_of (sp_cps s) =? n) then DetRaised
  else
    match det_template limit eps s with
    | None => DetRaised
    | Some t =>
        match all_some (map (fun a => greville a tol) (sp_axes t)) with
        | None => DetNaN
        | Some gs =>
            match cartesian_product gs true with
            | None => DetRaised
            | Some queries =>
                let dets := map (fun u => det n (fun d j => sp_deriv s j u d)) queries in
                let matrix := map (basis_row (sp_axes t)) queries in
                Determinant (Spl (sp_axes t) (map (fun x => [x]) (solve matrix dets)) (sp_weights t))
            end
        end
    end.
