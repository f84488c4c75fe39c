(** Specification of derivatives of splines: limits of difference quotients, and
    the derivatives by the product rule along the recursions of the basis
    functions. *)
From Coq Require Import List Arith QArith Qcanon.
From Verif Require Import BaseQc S_Grid S_Spline S_Value.
Import ListNotations.
Local Open Scope Qc_scope.

(** [g] is the derivative of [f] at [x]. *)
Definition is_deriv (f : Qc -> Qc) (x g : Qc) : Prop :=
  forall e, 0 < e -> exists r, 0 < r /\ forall y, qabs (y - x) < r ->
    qabs (f y - f x - g * (y - x)) <= e * qabs (y - x).

(** Derivatives of the basis functions. *)
Fixpoint dbasis (U : nat -> Qc) (s p i : nat) (u : Qc) : Qc :=
  match p with
  | O => 0
  | S q => 1 / (U (i + S q)%nat - U i) * basis U s q i u + (u - U i) / (U (i + S q)%nat - U i) * dbasis U s q i u
           + (- (1 / (U (i + q + 2)%nat - U (i + 1)%nat)) * basis U s q (i + 1) u
              + (U (i + q + 2)%nat - u) / (U (i + q + 2)%nat - U (i + 1)%nat) * dbasis U s q (i + 1) u)
  end.
Fixpoint dqpow (x : Qc) (n : nat) : Qc :=
  match n with O => 0 | S n => qpow x n + x * dqpow x n end.
Definition dbernstein (p i : nat) (t : Qc) : Qc :=
  inj (binom p i) * (dqpow t i * qpow (1 - t) (p - i) - qpow t i * dqpow (1 - t) (p - i)).
Definition ax_dfun (a : paxis) (u : Qc) (i : nat) : Qc :=
  match a with
  | BezierAxis p => dbernstein p i u
  | KnotAxis p kv => dbasis (kn kv) (find_span kv p (ax_n a) u) p i u
  end.
(** Inside a knot span. *)
Definition ax_inside (a : paxis) (u : Qc) : Prop :=
  match a with
  | BezierAxis _ => 0 < u /\ u < 1
  | KnotAxis p kv => exists s, (p <= s)%nat /\ (s < ax_n a)%nat /\ kn kv s < u /\ u < kn kv (S s)
  end.

(** Parameters with coordinate [j] replaced. *)
Definition put (j : nat) (x : Qc) (us : list Qc) : list Qc := firstn j us ++ x :: skipn (S j) us.
(** Basis functions, those of axis [j] replaced by their derivatives. *)
Definition sp_dbasis (axes : list paxis) (j : nat) (us : list Qc) : list (nat * (nat -> Qc)) :=
  map (fun kau => let '(k, (a, u)) := kau in (ax_n a, if Nat.eqb k j then ax_dfun a u else ax_fun a u))
      (combine (seq 0 (length axes)) (combine axes us)).
(** Derivative of coordinate [d] along axis [j]. *)
Definition sp_deriv (s : spline) (j : nat) (us : list Qc) (d : nat) : Qc :=
  let B := sp_basis (sp_axes s) us in
  let D := sp_dbasis (sp_axes s) j us in
  let P := net (sp_res s) (sp_cps s) d in
  match sp_weights s with
  | None => tensor D P
  | Some ws =>
      let w := fun ix => nth (flat_id (sp_res s) ix) ws 0 in
      (tensor D (fun ix => w ix * P ix) * tensor B w - tensor B (fun ix => w ix * P ix) * tensor D w)
      / (tensor B w * tensor B w)
  end.
(** The denominator of a rational spline. *)
Definition sp_denominator (s : spline) (us : list Qc) : Qc :=
  match sp_weights s with
  | None => 1
  | Some ws => tensor (sp_basis (sp_axes s) us) (fun ix => nth (flat_id (sp_res s) ix) ws 0)
  end.

(** Determinant of the leading n x n block. *)
Fixpoint det (n : nat) (a : nat -> nat -> Qc) : Qc :=
  match n with
  | O => 1
  | S n => qsum (map (fun j => ((if Nat.even j then 1 else - (1)) * a 0%nat j
                                * det n (fun i k => a (S i) (if (k <? j)%nat then k else S k)))%Qc)
                     (seq 0%nat (S n)))
  end.
