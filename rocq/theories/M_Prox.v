(** Model of the proximity search, /repo/src/proximity/proximity.cpp and
    /repo/include/splinepy/proximity/proximity.hpp. *)
From Coq Require Import List Arith ZArith QArith Qcanon.
From Verif Require Import Base BaseQc M_Solve.
Import ListNotations.
Local Open Scope nat_scope.

Definition vec := list dbl.

(** splinepy::utils::Subtract, arrays.hpp 661-672. *)
Definition subtract (a b : vec) : vec := map (fun p => dsub (fst p) (snd p)) (combine a b).
(** Array::InnerProduct and NormL2Squared, arrays.hpp 449-466 and 557-566. *)
Definition dot (a b : vec) : dbl :=
  fold_left dadd (map (fun p => dmul (fst p) (snd p)) (combine a b)) (Num 0).
Definition norm2 (a : vec) : dbl := dot a a.
(** std::max and std::min. *)
Definition dmax (a b : dbl) : dbl := if dlt a b then b else a.
Definition dmin (a b : dbl) : dbl := if dlt b a then b else a.

(** What the search asks of its surroundings: the spline (values, first and second
    derivatives), the square root of the C library, Matrix::Solve (see M_Solve for
    its model on numbers). *)
Record world := mkWorld {
  w_value : vec -> vec;                 (* SplinepyEvaluate *)
  w_first : vec -> list vec;            (* rows of the gradient, para_dim x dim *)
  w_second : vec -> list (list vec);    (* para_dim x para_dim x dim *)
  w_sqrt : dbl -> dbl;
  w_solve : list vec -> vec -> vec }.

(** SearchData, proximity.hpp 53-217, as far as it is read. *)
Record search := mkSearch {
  s_guess : vec;       (* current_guess, memory of final_guess *)
  s_phys : vec;        (* current_phys, memory of nearest *)
  s_diff : vec;        (* difference, memory of nearest_minus_query *)
  s_grad : list vec;   (* spline_gradient, memory of first_derivatives *)
  s_djdu : vec;
  s_J : dbl;
  s_dist : dbl;
  s_norm : dbl;
  s_goal : dbl }.

Section Search.
Variable w : world.
Variable query : vec.
Variables lbs ubs : vec.   (* search bounds, see [search_bounds] *)
Variable tol : dbl.

Definition set_guess (s : search) (g : vec) : search :=
  mkSearch g (s_phys s) (s_diff s) (s_grad s) (s_djdu s) (s_J s) (s_dist s) (s_norm s) (s_goal s).
Definition set_goal (s : search) (g : dbl) : search :=
  mkSearch (s_guess s) (s_phys s) (s_diff s) (s_grad s) (s_djdu s) (s_J s) (s_dist s) (s_norm s) g.
Definition set_djdu (s : search) (d : vec) : search :=
  mkSearch (s_guess s) (s_phys s) (s_diff s) (s_grad s) d (s_J s) (s_dist s) (s_norm s) (s_goal s).

(** ComputeCostAndDerivatives with depth 0, proximity.cpp 231-237 and 323-332. *)
Definition cost0 (s : search) : search :=
  let p := w_value w (s_guess s) in
  let d := subtract p query in
  mkSearch (s_guess s) p d (s_grad s) (s_djdu s) (dmul (Num (qc 1 2)) (norm2 d))
    (s_dist s) (s_norm s) (s_goal s).

(** Depth 1: also dJdu, proximity.cpp 239-271 and 334-336. *)
Definition cost1 (s : search) : search :=
  let s := cost0 s in
  let g := w_first w (s_guess s) in
  mkSearch (s_guess s) (s_phys s) (s_diff s) g (map (dot (s_diff s)) g) (s_J s)
    (s_dist s) (s_norm s) (s_goal s).

(** d2Jdu2, proximity.cpp 273-321: difference . d2S + (gradient gradient^T).  The
    lower triangle is a copy of the upper one. *)
Definition hessian (s : search) : list vec :=
  let n := length (s_grad s) in
  let at_ i j := dadd (dot (s_diff s) (nth j (nth i (w_second w (s_guess s)) []) []))
                      (dot (nth i (s_grad s) []) (nth j (s_grad s) [])) in
  map (fun i => map (fun j => at_ (Nat.min i j) (Nat.max i j)) (seq 0 n)) (seq 0 n).

(** ComputeStatus, proximity.cpp 348-359. *)
Definition fill_status (s : search) : search :=
  let sq := norm2 (s_diff s) in
  mkSearch (s_guess s) (s_phys s) (s_diff s) (s_grad s) (s_djdu s) (dmul (Num (qc 1 2)) sq)
    (w_sqrt w sq) (w_sqrt w (norm2 (s_djdu s))) (s_goal s).
Definition compute_status (recompute : bool) (s : search) : search :=
  fill_status (if recompute then cost1 s else s).

(** PrepareIterationNewton, proximity.cpp 382-389 (the part of the Hessian is
    [hessian] of the result). *)
Definition prepare (s : search) : search :=
  let s := cost1 s in set_djdu s (map dneg (s_djdu s)).

(** ConvergenceGoal, proximity.hpp 48-51; IsConverged, 212-215. *)
Definition goal_of (s : search) : dbl := dmax (dmul (s_norm s) tol) tol.
Definition converged (s : search) : bool := dlt (s_norm s) (s_goal s) || dlt (s_dist s) tol.

(** UpdateAndClip, proximity.cpp 226-229. *)
Definition step_guess (s : search) (delta : vec) : search :=
  set_guess s (map fst (update_and_clip lbs ubs (s_guess s) delta)).

(** Newton, proximity.cpp 391-427; [n] passes left. *)
Fixpoint newton_loop (n : nat) (s : search) : search :=
  match n with
  | 0 => s
  | S n =>
      if converged s then s
      else newton_loop n
             (compute_status false (prepare (step_guess s (w_solve w (hessian s) (s_djdu s)))))
  end.
Definition newton (max_iter : nat) (s : search) : search :=
  let s := compute_status false (prepare s) in
  newton_loop max_iter (set_goal s (goal_of s)).

(** PrepareIterationSlsqp, proximity.cpp 553-571. *)
Definition clip_guess (s : search) : search :=
  set_guess s (map fst (clip lbs ubs (s_guess s))).
Definition prepare_slsqp (mode : Z) (s : search) : search :=
  let s := clip_guess s in
  if (mode =? 0)%Z then compute_status false (cost1 s)
  else if (mode =? 1)%Z then cost0 s
  else if (mode =? -1)%Z then cost1 s
  else s.

(** Slsqp, proximity.cpp 573-641.  The C routine writes a new guess and a new
    mode; [calls] are the results of its successive calls.  [None]: the list ends
    before the loop does. *)
Fixpoint slsqp_loop (calls : list (vec * Z)) (s : search) : option (search * Z) :=
  match calls with
  | [] => None
  | (x, mode) :: calls =>
      let s := prepare_slsqp mode (set_guess s x) in
      if (Z.abs mode =? 1)%Z then slsqp_loop calls s else Some (s, mode)
  end.
Definition slsqp (calls : list (vec * Z)) (s : search) : option (search * Z) :=
  let s := compute_status false (prepare_slsqp 0 s) in
  match slsqp_loop calls (set_goal s (goal_of s)) with
  | None => None
  | Some (s, mode) => Some (compute_status true s, mode)
  end.

(** LevenbergMarquart, proximity.cpp 455-551.  [tries] are the solutions of the
    successive linear systems with the gain ratios computed from them: the matrix
    depends on LM.modified_update, which is never assigned (proximity.hpp 143,
    proximity.cpp 441).  The recomputation of delta_guess at 492-495 never runs
    because NonZeros is always 0, and only enters the gain ratio. *)
Fixpoint lm_loop (tries : list (vec * dbl)) (left : nat) (lambda : Qc) (prev_J : dbl) (s : search)
  : option search :=
  match left with
  | 0 => Some s
  | S left' =>
      if converged s then Some s
      else match tries with
      | [] => None
      | (delta, rho) :: tries =>
          let prev := s_guess s in
          let s := cost0 (step_guess s delta) in
          if dlt rho (Num (qc 1 4)) && dlt prev_J (s_J s) then
            let lambda := (lambda * inj 2)%Qc in
            if qltb (qc 100000 1) lambda then Some (compute_status true s)
            else lm_loop tries left lambda prev_J
                   (compute_status false (prepare (set_guess s prev)))
          else
            let lambda := if dlt (Num (qc 3 4)) rho then (lambda * qc 1 2)%Qc else lambda in
            lm_loop tries left' lambda (s_J s) (compute_status false (prepare s))
      end
  end.
Definition lm (tries : list (vec * dbl)) (max_iter : nat) (s : search) : option search :=
  let s := compute_status false (prepare s) in
  lm_loop tries max_iter 1%Qc (s_J s) (set_goal s (goal_of s)).

(** keep_best_and_did_it_improve, proximity.cpp 679-691: the new best cost, best
    guess, search data and answer.  The cost is overwritten in both branches. *)
Definition keep_best (best_J : dbl) (best : vec) (s : search) : dbl * vec * search * bool :=
  if dlt (s_J s) best_J then (s_J s, s_guess s, s, true)
  else (s_J s, best, set_guess s best, false).

(** What the caller finds in the output arguments.  Second derivatives are those
    at the returned guess on every path: after Newton they were computed by d2Jdu2
    for the last guess, otherwise FillHessian computes them (694-707). *)
Record result := mkResult {
  o_para : vec; o_phys : vec; o_diff : vec; o_dist : dbl; o_norm : dbl; o_grad : list vec }.
Definition output (s : search) : result :=
  mkResult (s_guess s) (s_phys s) (s_diff s) (s_dist s) (s_norm s) (s_grad s).

(** VerboseQuery, proximity.cpp 643-745, from the initial guess on. *)
Definition verbose_query (init : vec) (max_iter : nat)
    (calls : list (vec * Z)) (tries : list (vec * dbl)) : option result :=
  let s := cost0 (mkSearch init [] [] [] [] (Num (- 1%Qc)%Qc) (Num (- 1%Qc)%Qc) (Num (- 1%Qc)%Qc) (Num 0)) in
  let best_J := s_J s in
  let best := init in
  let s := newton max_iter s in
  if converged s then Some (output s)
  else
    let '(best_J, best, s, _) := keep_best best_J best s in
    match slsqp calls s with
    | None => None
    | Some (s, mode) =>
        if converged s || (mode =? 0)%Z then Some (output s)
        else
          let '(best_J, best, s, _) := keep_best best_J best s in
          match lm tries (max_iter * 5 * 5) s with
          | None => None
          | Some s =>
              let '(_, _, s, improved) := keep_best best_J best s in
              Some (output (if improved then compute_status true s else s))
          end
    end.
End Search.

(** FindSearchBound, proximity.cpp 361-380. *)
Definition search_bounds (tight : bool) (lo hi steps guess : vec) : vec * vec :=
  if tight then
    (map (fun p => dmax (fst p) (snd p)) (combine lo (subtract guess steps)),
     map (fun p => dmin (fst p) (snd p)) (combine hi (map (fun p => dadd (fst p) (snd p)) (combine guess steps))))
  else (lo, hi).

(** Proximity::VerboseQuery with the initial guess of the tree (a sample point,
    see M_Grid) and the bounds of the spline; a negative iteration limit means 20
    per direction (SearchData::Setup, proximity.cpp 109). *)
Definition query_proximity (w : world) (query lo hi steps : vec) (tight : bool) (tol : dbl)
    (max_iterations : Z) (init : vec) (calls : list (vec * Z)) (tries : list (vec * dbl)) : option result :=
  let '(lbs, ubs) := search_bounds tight lo hi steps init in
  let max_iter := if (max_iterations <? 0)%Z then length init * 20 else Z.to_nat max_iterations in
  verbose_query w query lbs ubs tol init max_iter calls tries.
