(** Property theorems C23 - C25: linear solver, clipping, proximity search. *)
From Coq Require Import List Arith ZArith QArith Qcanon Lia Permutation.
From Verif Require Import Base BaseQc S_Grid S_Spline S_Value M_Solve S_Solve P_Solve M_Prox S_Prox P_Prox W_KnotInsert W_Knots W_Prox.
Import ListNotations.
Local Open Scope nat_scope.

(** C23: for every square system, of any size, and every row order the object may
    hold, Solve either returns the solution, and then the matrix is not singular,
    or divides by zero, and then the matrix is singular. *)
Theorem C23_solve :
  forall a ord b, Permutation ord (seq 0 (length a)) ->
  match solve a ord b with
  | Some x => solves a b x /\ ~ singular a
  | None => singular a
  end.
Proof. exact solve_spec. Qed.
Print Assumptions C23_solve.

(** C23: the same seen from the matrix. *)
Theorem C23_regular :
  forall a ord b, Permutation ord (seq 0 (length a)) -> ~ singular a ->
  exists x, solve a ord b = Some x /\ solves a b x.
Proof. exact solve_regular. Qed.
Print Assumptions C23_regular.

(** Pivoting is needed in every column; the row order starts reversed. *)
Example C23_instance :
  let a := [[0; inj 2; 1]; [1; 1; 1]; [inj 4; 0; - 1%Qc]]%Qc in
  Permutation [2; 1; 0] (seq 0 (length a)) /\
  solve a [2; 1; 0] [inj 7; inj 6; 1]%Qc = Some [1; inj 2; inj 3]%Qc /\
  solve [[1; 1]; [inj 2; inj 2]]%Qc [0; 1] [1; 1]%Qc = None.
Proof.
  cbv zeta. split; [|split].
  - apply Permutation_sym. eapply perm_trans; [apply perm_swap|].
    eapply perm_trans; [apply perm_skip, perm_swap|]. apply perm_swap.
  - qceq.
  - vm_compute. reflexivity.
Qed.

(** C24: for coordinates that are numbers or infinite, and bounds in order,
    clipping puts every coordinate inside, keeps those that were inside, and the
    flags tell the side. *)
Theorem C24_clip :
  forall lbs ubs xs, length lbs = length xs -> length ubs = length xs ->
  (forall i, i < length xs -> dle (nth i lbs NaN) (nth i ubs NaN)) -> Forall (fun x => x <> NaN) xs ->
  length (clip lbs ubs xs) = length xs /\
  forall i x, nth_error xs i = Some x ->
    exists y flag, nth_error (clip lbs ubs xs) i = Some (y, flag) /\
      let lb := nth i lbs NaN in let ub := nth i ubs NaN in
      dle lb y /\ dle y ub /\
      (dle lb x -> dle x ub -> y = x) /\
      (flag = 1%Z <-> below ub x) /\ (flag = (-1)%Z <-> below x lb) /\
      (flag = 0%Z <-> dle lb x /\ dle x ub).
Proof. exact clip_all. Qed.
Print Assumptions C24_clip.

(** C24 fails for NaN: it stays NaN, which is not inside, and is not flagged. *)
Theorem C24_nan_refuted :
  exists lb ub x, dle lb ub /\ clip1 lb ub x = (NaN, 0%Z) /\ ~ (dle lb NaN /\ dle NaN ub).
Proof. exact clip_nan_out. Qed.
Print Assumptions C24_nan_refuted.

(** C24: a step to NaN is reachable, e.g. for a step in the direction of opposite
    infinities; in general the clipped step is inside or NaN. *)
Theorem C24_update :
  forall lbs ubs guess delta n, length lbs = n -> length ubs = n -> length guess = n -> length delta = n ->
  (forall i, i < n -> dle (nth i lbs NaN) (nth i ubs NaN)) ->
  forall i, i < n ->
    let y := nth i (map fst (update_and_clip lbs ubs guess delta)) NaN in
    y = NaN \/ (dle (nth i lbs NaN) y /\ dle y (nth i ubs NaN)).
Proof. exact update_inside. Qed.
Print Assumptions C24_update.

(** C24: the counter of clipped coordinates answers 0 whatever was clipped. *)
Theorem C24_non_zeros_refuted :
  (forall flags, non_zeros flags = 0) /\
  exists flags, length (filter (fun f => negb (f =? 0)%Z) flags) <> non_zeros flags.
Proof. exact non_zeros_wrong. Qed.
Print Assumptions C24_non_zeros_refuted.

Example C24_instance :
  let lbs := [Num 0; Num 0; Num 0; NInf] in let ubs := [Num 1; Num 1; Num 1; Num 1] in
  let xs := [Num (qc 1 2); PInf; Num (- 1%Qc)%Qc; Num (- inj 5)%Qc] in
  (forall i, i < 4 -> dle (nth i lbs NaN) (nth i ubs NaN)) /\ Forall (fun x => x <> NaN) xs /\
  clip lbs ubs xs = [(Num (qc 1 2), 0%Z); (Num 1, 1%Z); (Num 0, (-1)%Z); (Num (- inj 5)%Qc, 0%Z)].
Proof.
  cbv zeta. split; [|split].
  - intros i Hi. do 4 (destruct i as [|i]; [vm_compute; trivial; discriminate|]). lia.
  - repeat constructor; discriminate.
  - reflexivity.
Qed.

(** C25: the returned coordinate is inside the bounds of the spline, or NaN,
    whatever the optimisers do. *)
Theorem C25_inside :
  forall w query lo hi steps tight tol max_iterations init calls tries r n,
  sized n w -> length lo = n -> length hi = n -> length steps = n -> length init = n ->
  (forall i, i < n -> (nth i lo 0 <= nth i init 0)%Qc /\ (nth i init 0 <= nth i hi 0)%Qc /\ (0 <= nth i steps 0)%Qc) ->
  Forall (fun c => length (fst c) = n) calls -> Forall (fun c => length (fst c) = n) tries ->
  query_proximity w query (map Num lo) (map Num hi) (map Num steps) tight tol max_iterations
    (map Num init) calls tries = Some r ->
  length (o_para r) = n /\
  forall i, i < n -> nth i (o_para r) NaN = NaN \/
    exists x, nth i (o_para r) NaN = Num x /\ (nth i lo 0 <= x)%Qc /\ (x <= nth i hi 0)%Qc.
Proof. exact query_inside_num. Qed.
Print Assumptions C25_inside.

(** C25: point, difference, distance and gradient always belong to one and the same
    parametric coordinate. *)
Theorem C25_outputs_partial :
  forall w query lbs ubs tol init n calls tries r,
  verbose_query w query lbs ubs tol init n calls tries = Some r ->
  exists g, outputs_at w query g r.
Proof. exact query_outputs. Qed.
Print Assumptions C25_outputs_partial.

(** C25: it is the returned one if Newton or SLSQP succeed.  Missing: the third
    optimiser, see below. *)
Theorem C25_consistent_partial :
  forall w query lbs ubs tol init n calls tries r,
  let s0 := cost0 w query (mkSearch init [] [] [] [] (Num (- 1%Qc)%Qc) (Num (- 1%Qc)%Qc) (Num (- 1%Qc)%Qc) (Num 0)) in
  let s1 := newton w query lbs ubs tol n s0 in
  let s2 := snd (fst (keep_best (s_J s0) init s1)) in
  (converged tol s1 = true \/
   exists s3 mode, slsqp w query lbs ubs tol calls s2 = Some (s3, mode) /\ (converged tol s3 = true \/ mode = 0%Z)) ->
  verbose_query w query lbs ubs tol init n calls tries = Some r -> consistent w query r.
Proof. exact query_early. Qed.
Print Assumptions C25_consistent_partial.

(** C25 fails: when Levenberg-Marquardt ends without improvement the coordinate is
    set back but the point, difference and distance are those of the rejected
    guess.  Here the curve has a kink at its nearest point. *)
Theorem C25_consistent_refuted :
  exists w query lo hi steps tol init calls tries r,
    sized 1 w /\
    query_proximity w query [Num lo] [Num hi] [Num steps] false tol (-1) [Num init] calls tries = Some r /\
    o_phys r <> w_value w (o_para r).
Proof. exact not_consistent. Qed.
Print Assumptions C25_consistent_refuted.

(** C25 fails: a converged Newton iteration is not compared with the initial guess
    and may have found a maximum of the distance. *)
Theorem C25_never_worse_refuted :
  exists w query lo hi steps tol init r,
    sized 1 w /\ query_proximity w query [Num lo] [Num hi] [Num steps] false tol (-1) [Num init] [] [] = Some r /\
    (lo <= init /\ init <= hi)%Qc /\
    below (sq_distance w query [Num init]) (sq_distance w query (o_para r)).
Proof. exact worse_than_initial. Qed.
Print Assumptions C25_never_worse_refuted.

(** The run of the parabola: coordinate 12/25 at distance 6.9984 instead of 0 at 6;
    and of the kink: coordinate 1/2 with the point of another one. *)
Example C25_instance :
  option_map shown run_parabola =
    Some ([Some (12 # 25)], [Some (624 # 625)], [Some (4374 # 625)], Some (4374 # 625)) /\
  option_map shown run_kink =
    Some ([Some (1 # 2)], [Some (1 # 16385)], [Some (16386 # 16385)], Some (16386 # 16385)).
Proof. exact (conj run_parabola_shown run_kink_shown). Qed.
