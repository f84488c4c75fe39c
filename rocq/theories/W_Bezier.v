(** Concrete instances for the theorems on Bezier conversions, splitting and
    rational basis functions. *)
From Coq Require Import List Arith Lia ZArith QArith Qcanon Permutation Sorted.
From Verif Require Import Base BaseRadix BaseQc BaseSort S_Grid S_Spline S_Value P_Spline P_Value P_KnotInsert W_KnotInsert W_Knots
  S_Bezier M_Bezier P_Bezier M_Rational S_Rational P_Rational.
Import ListNotations.
Local Open Scope nat_scope.

(** A rational Bezier surface of degrees (2, 1) in the plane. *)
Definition wit_bezier : spline :=
  Spl [BezierAxis 2; BezierAxis 1]
    [[0; 0]; [1; inj 2]; [inj 3; 0]; [0; inj 4]; [inj 2; inj 5]; [inj 3; inj 3]]%Qc
    (Some [1; inj 2; 1; 1; qc 1 2; inj 3]%Qc).
Lemma wit_bezier_net k : k < 2 -> bezier_net k 2 wit_bezier.
Proof.
  intros K. repeat split; cbn; auto.
  - repeat constructor; eauto.
  - repeat constructor.
  - repeat constructor.
  - repeat constructor.
Qed.
(** Its quadratic curve without weights. *)
Definition wit_poly : spline :=
  Spl [BezierAxis 2] [[0; 0]; [1; inj 2]; [inj 3; 0]]%Qc None.
Lemma wit_poly_net : bezier_net 0 2 wit_poly.
Proof. repeat split; cbn; auto; repeat constructor; eauto. Qed.

(** A NURBS surface of degrees (2, 1) with one interior knot. *)
Definition wit_axes : list axis := [(2, [0; 0; 0; qc 1 2; 1; 1; 1]%Qc); (1, [0; 0; 1; 1]%Qc)].
Definition wit_ws : list Qc := [1; inj 2; 1; 1; qc 1 2; inj 3; 1; 1]%Qc.
Definition wit_us : list Qc := [qc 3 4; qc 1 3]%Qc.
Lemma wit_axes_wf : Forall axis_wf wit_axes.
Proof. constructor; [|constructor; [|constructor]]; apply knot_vector_dec; vm_compute; reflexivity. Qed.
Lemma wit_us_dom : Forall2 (fun a u => in_domain (fst a) (n_basis a) (snd a) u) wit_axes wit_us.
Proof. repeat constructor; vm_compute; discriminate. Qed.
