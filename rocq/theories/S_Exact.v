(** Specification of integrals of polynomials over boxes. *)
From Coq Require Import List Arith QArith Qcanon.
From Verif Require Import BaseQc S_Grid S_Spline S_Value S_Deriv M_Core S_Integrate.
Import ListNotations.
Local Open Scope list_scope.
Local Open Scope nat_scope.

(** Polynomial with coefficients [c], the coefficient of the lowest power first. *)
Fixpoint peval (c : list Qc) (x : Qc) : Qc :=
  match c with [] => 0%Qc | a :: c => (a + x * peval c x)%Qc end.
(** Its primitive that vanishes at 0. *)
Definition antideriv (c : list Qc) : list Qc :=
  0%Qc :: map (fun ia => snd ia / inj (S (fst ia)))%Qc (combine (seq 0 (length c)) c).

(** Polynomials of degree [k]; polynomials of several variables with a degree for
    each of them. *)
Definition pol (k : nat) (f : Qc -> Qc) : Prop := exists c, length c <= S k /\ forall x, f x = peval c x.
Fixpoint spoly (ks : list nat) (F : list Qc -> Qc) : Prop :=
  match ks with
  | [] => True
  | k :: ks => (forall u, length u = length ks -> pol k (fun x => F (x :: u))) /\ forall x, spoly ks (fun u => F (x :: u))
  end.

(** Gauss rules with n points integrate polynomials of degree 2 n - 1 exactly over
    (-1, 1). *)
Definition exact_rule (leg : nat -> list Qc * list Qc) : Prop :=
  forall n c, 0 < n -> length c <= 2 * n ->
    qsum (map (fun xw => peval c (fst xw) * snd xw)%Qc (combine (fst (leg n)) (snd (leg n))))
    = (peval (antideriv c) 1 - peval (antideriv c) (- (1)))%Qc.

(** [v] is the integral of [f] from [a] to [b]: [f] has a primitive there, whose
    difference quotients converge uniformly. *)
Definition integral (a b : Qc) (f : Qc -> Qc) (v : Qc) : Prop :=
  exists F, v = (F b - F a)%Qc /\
  forall e, (0 < e)%Qc -> exists r, (0 < r)%Qc /\
    forall x y, (a <= x)%Qc -> (x <= b)%Qc -> (a <= y)%Qc -> (y <= b)%Qc -> (qabs (y - x) < r)%Qc ->
      (qabs (F y - F x - f x * (y - x)) <= e * qabs (y - x))%Qc.
(** Iterated integral over a box. *)
Fixpoint box_integral (e : list (Qc * Qc)) (F : list Qc -> Qc) (v : Qc) : Prop :=
  match e with
  | [] => v = F []
  | (a, b) :: e => exists g, (forall x, (a <= x)%Qc -> (x <= b)%Qc -> box_integral e (fun u => F (x :: u)) (g x)) /\ integral a b g v
  end.
(** Strictly inside a box. *)
Definition within (e : list (Qc * Qc)) (u : list Qc) : Prop :=
  Forall2 (fun iv x => (fst iv < x)%Qc /\ (x < snd iv)%Qc) e u.
(** All weights are positive. *)
Definition positive_rule (leg : nat -> list Qc * list Qc) : Prop :=
  forall n, 0 < n -> Forall (fun w => (0 < w)%Qc) (snd (leg n)).
(** [v] is the integral of [F] over the box; only the values of [F] strictly inside
    count. *)
Definition element_integral (e : list (Qc * Qc)) (F : list Qc -> Qc) (v : Qc) : Prop :=
  exists P, (forall u, within e u -> P u = F u) /\ box_integral e P v.
(** Orders of the rules that suffice for the determinant of the derivatives. *)
Definition enough_orders (s : spline) (os : list nat) : Prop :=
  Forall2 (fun a o => ax_degree a * length (sp_axes s) <= 2 * o) (sp_axes s) os.
(** Two splines with the same domain and the same values there. *)
Definition same_map (s s' : spline) : Prop :=
  Forall2 (fun a a' => ax_lower a = ax_lower a' /\ ax_upper a = ax_upper a') (sp_axes s) (sp_axes s') /\
  dim_of (sp_cps s) = dim_of (sp_cps s') /\
  forall us d, sp_domain s us -> d < dim_of (sp_cps s) -> sp_value s us d = sp_value s' us d.
