(** Concrete runs of the proximity search. *)
From Coq Require Import List Arith ZArith QArith Qcanon Lia.
From Verif Require Import Base BaseQc S_Grid S_Spline S_Value M_Solve S_Solve M_Prox S_Prox P_Prox.
Import ListNotations.
Local Open Scope nat_scope.

(** Square root, exact on squares of fractions. *)
Definition wit_sqrt (x : dbl) : dbl :=
  match x with
  | Num q => if qltb q 0 then NaN
             else Num (Q2Qc (Z.sqrt (Qnum (this q) * Zpos (Qden (this q))) # Qden (this q)))
  | PInf => PInf
  | _ => NaN
  end.

(** Matrix::Solve on numbers; a division by zero is reported as NaN. *)
Definition to_q (x : dbl) : option Qc := match x with Num q => Some q | _ => None end.
Fixpoint to_qs (l : vec) : option (list Qc) :=
  match l with
  | [] => Some []
  | x :: l => match to_q x, to_qs l with Some q, Some qs => Some (q :: qs) | _, _ => None end
  end.
Fixpoint to_qss (l : list vec) : option (list (list Qc)) :=
  match l with
  | [] => Some []
  | x :: l => match to_qs x, to_qss l with Some q, Some qs => Some (q :: qs) | _, _ => None end
  end.
Definition wit_solve (h : list vec) (b : vec) : vec :=
  match to_qss h, to_qs b with
  | Some h, Some b' =>
      match solve h (seq 0 (length h)) b' with
      | Some x => if length x =? length b then map Num x else repeat NaN (length b)
      | None => repeat NaN (length b)
      end
  | _, _ => repeat NaN (length b)
  end.
Lemma wit_solve_length h b : length (wit_solve h b) = length b.
Proof.
  unfold wit_solve. destruct (to_qss h), (to_qs b); try apply repeat_length.
  destruct (solve _ _ _); [|apply repeat_length].
  destruct (Nat.eqb_spec (length l1) (length b)); [now rewrite map_length|apply repeat_length].
Qed.

(** A curve on the line with given first and second derivative. *)
Definition curve (s : spline) (d1 d2 : Qc -> Qc) : world :=
  let on f := fun g : vec => match g with [Num u] => [Num (f u)] | _ => [NaN] end in
  mkWorld (on (fun u => sp_value s [u] 0)) (fun g => [on d1 g]) (fun g => [[on d2 g]]) wit_sqrt wit_solve.
Lemma curve_sized s d1 d2 : sized 1 (curve s d1 d2).
Proof. split; [reflexivity|apply wit_solve_length]. Qed.

(** The parabola 4 u (1 - u) as a Bezier curve. *)
Definition parabola : spline := Spl [BezierAxis 2] [[0]; [inj 2]; [0]]%Qc None.
Definition parabola_world : world := curve parabola (fun u => inj 4 - inj 8 * u)%Qc (fun _ => - inj 8)%Qc.
Lemma parabola_value u : (sp_value parabola [u] 0 = inj 4 * u * (1 - u))%Qc.
Proof.
  change (sp_value parabola [u] 0) with
    (inj 1 * 1 * ((1 - u) * ((1 - u) * 1)) * 0 + (inj 2 * (u * 1) * ((1 - u) * 1) * inj 2
     + (inj 1 * (u * (u * 1)) * 1 * 0 + 0)))%Qc.
  change (inj 1) with 1%Qc. change (inj 4) with (inj 2 * inj 2)%Qc. ring.
Qed.
(** Its derivatives are the ones used. *)
Lemma parabola_derivatives u h :
  (sp_value parabola [u + h] 0 = sp_value parabola [u] 0 + h * (inj 4 - inj 8 * u) + h * h * qc 1 2 * (- inj 8))%Qc.
Proof.
  rewrite !parabola_value.
  replace (h * h * qc 1 2 * (- inj 8))%Qc with (h * h * (- inj 4))%Qc
    by (replace (- inj 4)%Qc with (qc 1 2 * - inj 8)%Qc by (apply Qc_is_canon; vm_compute; reflexivity); ring).
  change (inj 8) with (inj 4 + inj 4)%Qc. ring.
Qed.

(** Query at -6, start at the nearest sample 0. *)
Notation run_parabola := (
  query_proximity parabola_world [Num (- inj 6)%Qc] [Num 0] [Num 1] [Num 1] false (Num (qc 1 10)) (-1) [Num 0] [] []).
Definition show (x : dbl) : option Q := match x with Num q => Some (this q) | _ => None end.

(** A curve with a kink: degree 1, control points 1, 0, 1. *)
Definition kink : spline := Spl [KnotAxis 1 [0; 0; qc 1 2; 1; 1]%Qc] [[1]; [0]; [1]]%Qc None.
Definition kink_world : world :=
  curve kink (fun u => if qltb u (qc 1 2) then - inj 2 else inj 2)%Qc (fun _ => 0%Qc).
(** The steps of Levenberg-Marquardt from the kink: -2 / (4 + lambda), lambda = 1, 2, 4, ... *)
Definition kink_tries : list (vec * dbl) :=
  map (fun k => ([Num (- (inj 2 / (inj 4 + qc (2 ^ Z.of_nat k) 1)))%Qc], Num (- 1%Qc)%Qc)) (seq 0 17).
Notation run_kink := (
  query_proximity kink_world [Num (- 1%Qc)%Qc] [Num 0] [Num 1] [Num (qc 1 2)] false (Num (qc 1 1000)) (-1)
    [Num (qc 1 2)] [([Num (qc 1 2)], 8%Z)] kink_tries).

Definition shown (r : result) := (map show (o_para r), map show (o_phys r), map show (o_diff r), show (o_dist r)).
Lemma run_parabola_shown :
  option_map shown run_parabola =
  Some ([Some (12 # 25)], [Some (624 # 625)], [Some (4374 # 625)], Some (4374 # 625)).
Proof. vm_compute. reflexivity. Qed.
Lemma run_kink_shown :
  option_map shown run_kink =
  Some ([Some (1 # 2)], [Some (1 # 16385)], [Some (16386 # 16385)], Some (16386 # 16385)).
Proof. vm_compute. reflexivity. Qed.

Lemma show_one l q : map show l = [Some (this q)] -> l = [Num q].
Proof.
  destruct l as [|x [|y l]]; try discriminate. intros [= H]. destruct x as [q'| | |]; try discriminate.
  cbn in H. injection H as H. assert (q' = q) by (apply Qc_is_canon; rewrite H; reflexivity). now subst.
Qed.
Lemma worse_than_initial :
  exists w query lo hi steps tol init r,
    sized 1 w /\ query_proximity w query [Num lo] [Num hi] [Num steps] false tol (-1) [Num init] [] [] = Some r /\
    (lo <= init /\ init <= hi)%Qc /\
    below (sq_distance w query [Num init]) (sq_distance w query (o_para r)).
Proof.
  exists parabola_world, [Num (- inj 6)%Qc], 0%Qc, 1%Qc, 1%Qc, (Num (qc 1 10)), 0%Qc.
  destruct run_parabola as [r|] eqn:E; [|exfalso; pose proof run_parabola_shown as H; rewrite E in H; discriminate].
  exists r. split; [apply curve_sized|]. split; [reflexivity|]. split; [split; vm_compute; discriminate|].
  pose proof run_parabola_shown as H. rewrite E in H. clear E. unfold shown in H. injection H as HP _ _ _.
  rewrite (show_one _ (qc 12 25) HP).
  apply dlt_below. vm_compute. reflexivity.
Qed.

Lemma not_consistent :
  exists w query lo hi steps tol init calls tries r,
    sized 1 w /\
    query_proximity w query [Num lo] [Num hi] [Num steps] false tol (-1) [Num init] calls tries = Some r /\
    o_phys r <> w_value w (o_para r).
Proof.
  exists kink_world, [Num (- 1%Qc)%Qc], 0%Qc, 1%Qc, (qc 1 2), (Num (qc 1 1000)), (qc 1 2),
    [([Num (qc 1 2)], 8%Z)], kink_tries.
  destruct run_kink as [r|] eqn:E; [|exfalso; pose proof run_kink_shown as H; rewrite E in H; discriminate].
  exists r. split; [apply curve_sized|]. split; [reflexivity|].
  pose proof run_kink_shown as H. rewrite E in H. clear E. unfold shown in H. injection H as HP HX _ _.
  rewrite (show_one _ (qc 1 2) HP).
  intros C. rewrite C in HX. vm_compute in HX. discriminate.
Qed.

(** The steps are the solutions of the damped normal equations at the kink. *)
Lemma kink_steps :
  map (map show) (map fst kink_tries) =
  map (fun k => map show (wit_solve [[Num (inj 4 + qc (2 ^ Z.of_nat k) 1)%Qc]] [Num (- inj 2)%Qc])) (seq 0 17).
Proof. vm_compute. reflexivity. Qed.
